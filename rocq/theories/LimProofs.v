(** * LimProofs: soundness of the limit algebra *)
From Coq Require Import ZArith List String Bool Lia Lra.
From Coq Require Import Reals.
From Coquelicot Require Import Coquelicot.
From Verif Require Import Base Float Rational SmartNum Ast Compute Limit Spec SpecTree SpecR SpecLim.
From Verif Require Import BaseProofs NumProofs NumProofs2 TreeProofs TreeProofs2 TreeProofs3 TreeProofs4 TreeProofs5 RealProofs.
Import ListNotations.
Open Scope R_scope.

Section Alg.
Context (F : (R -> Prop) -> Prop) {FF : Filter F}.

Lemma inf_iff (f : R -> R) : filterlim (fun t => Rabs (f t)) F (Rbar_locally p_infty) <->
  forall M, F (fun t => M < Rabs (f t)).
Proof.
  split.
  - intros H M. apply (H (fun y => M < y)). exists M. auto.
  - intros H P [M HM]. unfold filtermap. generalize (H M). apply filter_imp. auto.
Qed.
Lemma lim_iff (f : R -> R) (l : R) : filterlim f F (locally l) <->
  forall eps, 0 < eps -> F (fun t => Rabs (f t - l) < eps).
Proof.
  split.
  - intros H eps He. apply (H (fun y => Rabs (y - l) < eps)). exists (mkposreal eps He). intros y Hy. exact Hy.
  - intros H P [eps HP]. unfold filtermap. generalize (H eps (cond_pos eps)). apply filter_imp.
    intros t Ht. apply HP. exact Ht.
Qed.

Lemma lim_bounded (f : R -> R) (l : R) : filterlim f F (locally l) -> F (fun t => Rabs (f t) <= Rabs l + 1).
Proof.
  intros H. rewrite lim_iff in H. generalize (H 1 ltac:(lra)). apply filter_imp. intros t Ht.
  pose proof (Rabs_triang (f t - l) l). replace (f t - l + l) with (f t) in H0 by ring. lra.
Qed.
Lemma lim_away (f : R -> R) (l : R) : l <> 0 -> filterlim f F (locally l) -> F (fun t => Rabs l / 2 < Rabs (f t)).
Proof.
  intros Hl H. rewrite lim_iff in H. pose proof (Rabs_pos_lt l Hl).
  generalize (H (Rabs l / 2) ltac:(lra)). apply filter_imp. intros t Ht.
  pose proof (Rabs_triang (l - f t) (f t)). replace (l - f t + f t) with l in H1 by ring.
  rewrite Rabs_minus_sym in H1. lra.
Qed.
Lemma lim_neq (f : R -> R) (l : R) : l <> 0 -> filterlim f F (locally l) -> F (fun t => f t <> 0).
Proof.
  intros Hl H. generalize (lim_away f l Hl H). apply filter_imp. intros t Ht E.
  rewrite E, Rabs_R0 in Ht. pose proof (Rabs_pos l). lra.
Qed.
Lemma inf_neq (f : R -> R) : filterlim (fun t => Rabs (f t)) F (Rbar_locally p_infty) -> F (fun t => f t <> 0).
Proof.
  intros H. rewrite inf_iff in H. generalize (H 0). apply filter_imp. intros t Ht E.
  rewrite E, Rabs_R0 in Ht. lra.
Qed.

Lemma lim_plus (f g : R -> R) (a b : R) : filterlim f F (locally a) -> filterlim g F (locally b) ->
  filterlim (fun t => f t + g t) F (locally (a + b)).
Proof. intros Hf Hg. exact (filterlim_comp_2 f g plus Hf Hg (filterlim_plus a b)). Qed.
Lemma lim_opp (f : R -> R) (a : R) : filterlim f F (locally a) -> filterlim (fun t => - f t) F (locally (- a)).
Proof. intros Hf. exact (filterlim_comp _ _ _ f opp _ _ _ Hf (filterlim_opp a)). Qed.
Lemma lim_mult (f g : R -> R) (a b : R) : filterlim f F (locally a) -> filterlim g F (locally b) ->
  filterlim (fun t => f t * g t) F (locally (a * b)).
Proof. intros Hf Hg. exact (filterlim_comp_2 f g mult Hf Hg (filterlim_mult (K := R_AbsRing) a b)). Qed.
Lemma lim_inv (f : R -> R) (a : R) : a <> 0 -> filterlim f F (locally a) -> filterlim (fun t => / f t) F (locally (/ a)).
Proof.
  intros Ha Hf. rewrite lim_iff. intros eps He. pose proof (Rabs_pos_lt a Ha) as Pa.
  assert (0 < eps * (Rabs a * Rabs a) / 2) as Pe.
  { apply Rmult_lt_0_compat; [|lra]. apply Rmult_lt_0_compat; [assumption|]. apply Rmult_lt_0_compat; assumption. }
  generalize (filter_and _ _ (lim_away f a Ha Hf) (proj1 (lim_iff f a) Hf _ Pe)).
  apply filter_imp. intros t [H1 H2].
  assert (f t <> 0) as N. { intros E. rewrite E, Rabs_R0 in H1. lra. }
  replace (/ f t - / a) with (- (f t - a) / (f t * a)) by (field; auto).
  unfold Rdiv. rewrite Rabs_mult, Rabs_Ropp, Rabs_inv, Rabs_mult.
  pose proof (Rabs_pos_lt _ N) as Pf.
  apply Rmult_lt_reg_r with (Rabs (f t) * Rabs a); [apply Rmult_lt_0_compat; assumption|].
  rewrite Rmult_assoc, Rinv_l by (apply Rmult_integral_contrapositive_currified; lra).
  rewrite Rmult_1_r. eapply Rlt_le_trans; [exact H2|].
  replace (eps * (Rabs a * Rabs a) / 2) with (eps * (Rabs a / 2 * Rabs a)) by field.
  apply Rmult_le_compat_l; [lra|]. apply Rmult_le_compat_r; lra.
Qed.
Lemma lim_zero_abs (f : R -> R) : filterlim f F (locally 0) <-> forall eps, 0 < eps -> F (fun t => Rabs (f t) < eps).
Proof.
  rewrite lim_iff. split; intros H eps He; generalize (H eps He); apply filter_imp; intros t Ht;
    [rewrite Rminus_0_r in Ht|rewrite Rminus_0_r]; assumption.
Qed.

(** bounded times infinitesimal *)
Lemma bnd_small (f g : R -> R) M : F (fun t => Rabs (f t) <= M) -> filterlim g F (locally 0) ->
  filterlim (fun t => f t * g t) F (locally 0).
Proof.
  intros Hf Hg. rewrite lim_zero_abs in *. intros eps He.
  set (K := Rmax M 0 + 1). assert (0 < K) as HK. { unfold K. pose proof (Rmax_r M 0). lra. }
  generalize (filter_and _ _ Hf (Hg (eps / K) ltac:(apply Rdiv_lt_0_compat; assumption))).
  apply filter_imp. intros t [H1 H2]. rewrite Rabs_mult.
  assert (Rabs (f t) <= K) as H3. { unfold K. pose proof (Rmax_l M 0). lra. }
  apply Rle_lt_trans with (K * Rabs (g t)).
  - apply Rmult_le_compat_r; [apply Rabs_pos|assumption].
  - apply Rmult_lt_reg_l with (/ K); [apply Rinv_0_lt_compat; assumption|].
    replace (/ K * (K * Rabs (g t))) with (Rabs (g t)) by (field; lra).
    replace (/ K * eps) with (eps / K) by (field; lra). assumption.
Qed.
(** bounded below times infinite *)
Lemma away_big (f g : R -> R) c : 0 < c -> F (fun t => c < Rabs (f t)) ->
  filterlim (fun t => Rabs (g t)) F (Rbar_locally p_infty) ->
  filterlim (fun t => Rabs (f t * g t)) F (Rbar_locally p_infty).
Proof.
  intros Hc Hf Hg. rewrite inf_iff in *. intros M.
  generalize (filter_and _ _ Hf (Hg (Rmax M 0 / c))). apply filter_imp. intros t [H1 H2].
  rewrite Rabs_mult. apply Rle_lt_trans with (Rmax M 0); [apply Rmax_l|].
  assert (Rmax M 0 < c * Rabs (g t)) as H3.
  { apply Rmult_lt_reg_l with (/ c); [apply Rinv_0_lt_compat; assumption|].
    replace (/ c * (c * Rabs (g t))) with (Rabs (g t)) by (field; lra).
    replace (/ c * Rmax M 0) with (Rmax M 0 / c) by (field; lra). assumption. }
  eapply Rlt_le_trans; [exact H3|]. apply Rmult_le_compat_r; [apply Rabs_pos|lra].
Qed.
Lemma big_bnd (f g : R -> R) M : filterlim (fun t => Rabs (f t)) F (Rbar_locally p_infty) ->
  F (fun t => Rabs (g t) <= M) -> filterlim (fun t => Rabs (f t + g t)) F (Rbar_locally p_infty).
Proof.
  intros Hf Hg. rewrite inf_iff in *. intros K.
  generalize (filter_and _ _ (Hf (K + M)) Hg). apply filter_imp. intros t [H1 H2].
  pose proof (Rabs_triang (f t + g t) (- g t)) as T. replace (f t + g t + - g t) with (f t) in T by ring.
  rewrite Rabs_Ropp in T. lra.
Qed.
Lemma inv_small (f : R -> R) : filterlim (fun t => Rabs (f t)) F (Rbar_locally p_infty) ->
  filterlim (fun t => / f t) F (locally 0).
Proof.
  intros Hf. rewrite lim_zero_abs. rewrite inf_iff in Hf. intros eps He.
  generalize (Hf (/ eps)). apply filter_imp. intros t Ht. rewrite Rabs_inv.
  pose proof (Rinv_0_lt_compat _ He). rewrite <- (Rinv_inv eps).
  apply Rinv_lt_contravar; [|assumption]. apply Rmult_lt_0_compat; lra.
Qed.
Lemma inv_big (f : R -> R) : filterlim f F (locally 0) -> F (fun t => f t <> 0) ->
  filterlim (fun t => Rabs (/ f t)) F (Rbar_locally p_infty).
Proof.
  intros Hf Hn. rewrite inf_iff. rewrite lim_zero_abs in Hf. intros M.
  set (K := Rmax M 0 + 1). assert (0 < K) as HK. { unfold K. pose proof (Rmax_r M 0). lra. }
  generalize (filter_and _ _ (Hf (/ K) (Rinv_0_lt_compat _ HK)) Hn). apply filter_imp. intros t [H1 H2].
  rewrite Rabs_inv. pose proof (Rabs_pos_lt _ H2). apply Rlt_trans with K.
  - unfold K. pose proof (Rmax_l M 0). lra.
  - rewrite <- (Rinv_inv K). apply Rinv_lt_contravar; [|assumption].
    apply Rmult_lt_0_compat; [assumption|apply Rinv_0_lt_compat; assumption].
Qed.
Lemma big_mult (f g : R -> R) : filterlim (fun t => Rabs (f t)) F (Rbar_locally p_infty) ->
  filterlim (fun t => Rabs (g t)) F (Rbar_locally p_infty) ->
  filterlim (fun t => Rabs (f t * g t)) F (Rbar_locally p_infty).
Proof. intros Hf Hg. apply away_big with 1; [lra| |assumption]. exact (proj1 (inf_iff f) Hf 1). Qed.

Lemma lim_ext (f g : R -> R) (G : (R -> Prop) -> Prop) : F (fun t => f t = g t) ->
  filterlim f F G -> filterlim g F G.
Proof. intros E H. exact (filterlim_ext_loc f g E H). Qed.

Lemma describes_ext rho (f g : R -> R) l : F (fun t => f t = g t) -> describes F rho f l -> describes F rho g l.
Proof.
  intros E. destruct l; cbn [describes].
  - apply lim_ext. exact E.
  - apply lim_ext. generalize E. apply filter_imp. intros t ->. reflexivity.
  - intros [M H]. exists M. generalize (filter_and _ _ E H). apply filter_imp. intros t [<- K]. exact K.
  - intros (v & Hv & H). exists v. split; [exact Hv|]. revert H. apply lim_ext. exact E.
Qed.

Lemma neg_sound rho f a : describes F rho f a -> describes F rho (fun t => - f t) (l_neg a).
Proof.
  destruct a; cbn [describes l_neg].
  - intros H. replace 0 with (- 0) by ring. apply lim_opp. exact H.
  - intros H. revert H. apply lim_ext. apply filter_forall. intros t. rewrite Rabs_Ropp. reflexivity.
  - intros [M H]. exists M. generalize H. apply filter_imp. intros t K. rewrite Rabs_Ropp. exact K.
  - intros (v & Hv & H). exists (- v). split; [|apply lim_opp; exact H].
    unfold e_neg. rewrite eval_mk1, Hv. reflexivity.
Qed.

Lemma bnd_of_lim (f : R -> R) l : filterlim f F (locally l) -> exists M, F (fun t => Rabs (f t) <= M).
Proof. intros H. exists (Rabs l + 1). apply lim_bounded. exact H. Qed.
Lemma bnd_plus (f g : R -> R) M N : F (fun t => Rabs (f t) <= M) -> F (fun t => Rabs (g t) <= N) ->
  exists K, F (fun t => Rabs (f t + g t) <= K).
Proof.
  intros Hf Hg. exists (M + N). generalize (filter_and _ _ Hf Hg). apply filter_imp. intros t [H1 H2].
  pose proof (Rabs_triang (f t) (g t)). lra.
Qed.
Lemma bnd_mult (f g : R -> R) M N : F (fun t => Rabs (f t) <= M) -> F (fun t => Rabs (g t) <= N) ->
  exists K, F (fun t => Rabs (f t * g t) <= K).
Proof.
  intros Hf Hg. exists (M * N). generalize (filter_and _ _ Hf Hg). apply filter_imp. intros t [H1 H2].
  rewrite Rabs_mult. apply Rmult_le_compat; try assumption; apply Rabs_pos.
Qed.
Lemma inf_comm (f g : R -> R) : filterlim (fun t => Rabs (f t + g t)) F (Rbar_locally p_infty) ->
  filterlim (fun t => Rabs (g t + f t)) F (Rbar_locally p_infty).
Proof. apply lim_ext. apply filter_forall. intros t. rewrite Rplus_comm. reflexivity. Qed.

(** addition needs no side condition *)
Lemma add_sound rho f g a b z : describes F rho f a -> describes F rho g b -> l_add a b = ROk z ->
  describes F rho (fun t => f t + g t) z.
Proof.
  intros Ha Hb H.
  destruct a as [| | |ea], b as [| | |eb]; cbn [l_add] in H; try discriminate H; injection H as <-;
    cbn [describes] in *.
  - replace 0 with (0 + 0) by ring. apply lim_plus; assumption.
  - destruct Hb as [M Hb]. destruct (bnd_of_lim f 0 Ha) as [K HK]. exact (bnd_plus f g _ _ HK Hb).
  - destruct Hb as (v & Hv & Hb). exists v. split; [exact Hv|]. replace v with (0 + v) by ring.
    apply lim_plus; assumption.
  - destruct (bnd_of_lim g 0 Hb) as [K HK]. exact (big_bnd f g K Ha HK).
  - destruct Hb as [K HK]. exact (big_bnd f g K Ha HK).
  - destruct Hb as (v & Hv & Hb). destruct (bnd_of_lim g v Hb) as [K HK]. exact (big_bnd f g K Ha HK).
  - destruct Ha as [M Ha]. destruct (bnd_of_lim g 0 Hb) as [K HK]. exact (bnd_plus f g _ _ Ha HK).
  - destruct Ha as [K HK]. apply inf_comm. exact (big_bnd g f K Hb HK).
  - destruct Ha as [M Ha], Hb as [N Hb]. exact (bnd_plus f g _ _ Ha Hb).
  - destruct Ha as [M Ha], Hb as (v & Hv & Hb). destruct (bnd_of_lim g v Hb) as [K HK].
    exact (bnd_plus f g _ _ Ha HK).
  - destruct Ha as (v & Hv & Ha). exists v. split; [exact Hv|]. replace v with (v + 0) by ring.
    apply lim_plus; assumption.
  - destruct Ha as (v & Hv & Ha). destruct (bnd_of_lim f v Ha) as [K HK]. apply inf_comm. exact (big_bnd g f K Hb HK).
  - destruct Ha as (v & Hv & Ha), Hb as [N Hb]. destruct (bnd_of_lim f v Ha) as [K HK].
    exact (bnd_plus f g _ _ HK Hb).
  - destruct Ha as (v & Hv & Ha), Hb as (w & Hw & Hb). exists (v + w). split; [|apply lim_plus; assumption].
    unfold e_add. rewrite eval_mk2, Hv, Hw. reflexivity.
Qed.

Lemma nz_of rho e v : eval rho e <> Some 0 -> eval rho e = Some v -> v <> 0.
Proof. intros H E ->. exact (H E). Qed.
Lemma mult_comm_lim (f g : R -> R) (G : (R -> Prop) -> Prop) : filterlim (fun t => f t * g t) F G ->
  filterlim (fun t => g t * f t) F G.
Proof. apply lim_ext. apply filter_forall. intros t. apply Rmult_comm. Qed.
Lemma mult_comm_inf (f g : R -> R) (G : (R -> Prop) -> Prop) : filterlim (fun t => Rabs (f t * g t)) F G ->
  filterlim (fun t => Rabs (g t * f t)) F G.
Proof. apply lim_ext. apply filter_forall. intros t. rewrite Rmult_comm. reflexivity. Qed.

(** multiplication: Normal operands next to an Infinity must be nonzero *)
Lemma mul_sound rho f g a b z : describes F rho f a -> describes F rho g b ->
  safe_mul rho a b -> l_mul a b = ROk z ->
  describes F rho (fun t => f t * g t) z.
Proof.
  intros Ha Hb Ns H.
  destruct a as [| | |ea], b as [| | |eb]; cbn [l_mul] in H; try discriminate H; injection H as <-;
    cbn [describes] in *.
  - destruct (bnd_of_lim f 0 Ha) as [K HK]. exact (bnd_small f g K HK Hb).
  - destruct Hb as [K HK]. apply mult_comm_lim. exact (bnd_small g f K HK Ha).
  - destruct Hb as (v & Hv & Hb). destruct (bnd_of_lim g v Hb) as [K HK]. apply mult_comm_lim.
    exact (bnd_small g f K HK Ha).
  - apply big_mult; assumption.
  - destruct Hb as (v & Hv & Hb). pose proof (nz_of _ _ _ Ns Hv) as N. apply mult_comm_inf.
    apply away_big with (Rabs v / 2); [pose proof (Rabs_pos_lt v N); lra|apply lim_away; assumption|assumption].
  - destruct Ha as [K HK]. exact (bnd_small f g K HK Hb).
  - destruct Ha as [M Ha], Hb as [N Hb]. exact (bnd_mult f g _ _ Ha Hb).
  - destruct Ha as [M Ha], Hb as (v & Hv & Hb). destruct (bnd_of_lim g v Hb) as [K HK].
    exact (bnd_mult f g _ _ Ha HK).
  - destruct Ha as (v & Hv & Ha). destruct (bnd_of_lim f v Ha) as [K HK]. exact (bnd_small f g K HK Hb).
  - destruct Ha as (v & Hv & Ha). pose proof (nz_of _ _ _ Ns Hv) as N.
    apply away_big with (Rabs v / 2); [pose proof (Rabs_pos_lt v N); lra|apply lim_away; assumption|assumption].
  - destruct Ha as (v & Hv & Ha), Hb as [N Hb]. destruct (bnd_of_lim f v Ha) as [K HK].
    exact (bnd_mult f g _ _ HK Hb).
  - destruct Ha as (v & Hv & Ha), Hb as (w & Hw & Hb). exists (v * w). split; [|apply lim_mult; assumption].
    unfold e_mul. rewrite eval_mk2, Hv, Hw. reflexivity.
Qed.

Lemma big_div (f g : R -> R) M : filterlim (fun t => Rabs (f t)) F (Rbar_locally p_infty) ->
  F (fun t => Rabs (g t) <= M) -> F (fun t => g t <> 0) ->
  filterlim (fun t => Rabs (f t / g t)) F (Rbar_locally p_infty).
Proof.
  intros Hf Hg Hn. set (K := Rmax M 0 + 1). assert (0 < K) as HK. { unfold K. pose proof (Rmax_r M 0). lra. }
  unfold Rdiv. apply mult_comm_inf. apply away_big with (/ (2 * K)).
  - apply Rinv_0_lt_compat. lra.
  - generalize (filter_and _ _ Hg Hn). apply filter_imp. intros t [H1 H2]. rewrite Rabs_inv.
    pose proof (Rabs_pos_lt _ H2). apply Rinv_lt_contravar; [apply Rmult_lt_0_compat; lra|].
    unfold K. pose proof (Rmax_l M 0). pose proof (Rmax_r M 0). lra.
  - exact Hf.
Qed.

Lemma div_sound rho f g a b z : describes F rho f a -> describes F rho g b ->
  safe_div rho a b -> F (fun t => g t <> 0) -> l_div a b = ROk z ->
  describes F rho (fun t => f t / g t) z.
Proof.
  intros Ha Hb Ns Hn H.
  destruct a as [| | |ea], b as [| | |eb]; cbn [l_div negb] in H; try discriminate H;
    try (destruct (is_zero eb) eqn:Z0; [discriminate H|]); try (destruct (is_zero ea) eqn:Z0; [discriminate H|]);
    injection H as <-; cbn [describes] in *; unfold Rdiv; unfold safe_div in Ns; try rewrite Z0 in Ns; try specialize (Ns eq_refl).
  - replace 0 with (0 * 0) by ring. apply lim_mult; [exact Ha|apply inv_small; exact Hb].
  - destruct Hb as (v & Hv & Hb). replace 0 with (0 * / v) by ring. apply lim_mult; [exact Ha|].
    apply lim_inv; [exact (nz_of _ _ _ Ns Hv)|exact Hb].
  - destruct (bnd_of_lim g 0 Hb) as [K HK]. exact (big_div f g K Ha HK Hn).
  - destruct Hb as (v & Hv & Hb). destruct (bnd_of_lim g v Hb) as [K HK]. exact (big_div f g K Ha HK Hn).
  - destruct Ha as [K HK]. exact (bnd_small f (fun t => / g t) K HK (inv_small g Hb)).
  - destruct Ha as [K HK], Hb as (v & Hv & Hb).
    destruct (bnd_of_lim _ _ (lim_inv g v (nz_of _ _ _ Ns Hv) Hb)) as [K' HK'].
    exact (bnd_mult f (fun t => / g t) _ _ HK HK').
  - destruct Ha as (v & Hv & Ha). pose proof (nz_of _ _ _ Ns Hv) as N.
    apply away_big with (Rabs v / 2); [pose proof (Rabs_pos_lt v N); lra|apply lim_away; assumption|].
    apply inv_big; assumption.
  - destruct Ha as (v & Hv & Ha). destruct (bnd_of_lim f v Ha) as [K HK].
    exact (bnd_small f (fun t => / g t) K HK (inv_small g Hb)).
  - destruct Ha as (v & Hv & Ha), Hb as (w & Hw & Hb). pose proof (nz_of _ _ _ Ns Hw) as N.
    exists (v / w). split; [|apply lim_mult; [exact Ha|apply lim_inv; assumption]].
    unfold e_div. rewrite eval_mk2, Hv, Hw. cbn [obind ev2]. destruct (Req_EM_T w 0); [contradiction|reflexivity].
Qed.
End Alg.
