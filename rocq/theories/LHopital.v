(** * LHopital: L'Hopital's rule at a finite point, both indeterminate forms (pure analysis) *)
From Coq Require Import Reals Lra Lia.
From Coquelicot Require Import Coquelicot.
Open Scope R_scope.

(** Cauchy's mean value theorem with is_derive, open interval, strict point *)
Lemma cauchy_mvt (f g f' g' : R -> R) (a b : R) : a < b ->
  (forall c, a < c < b -> is_derive f c (f' c)) -> (forall c, a < c < b -> is_derive g c (g' c)) ->
  (forall c, a <= c <= b -> continuity_pt f c) -> (forall c, a <= c <= b -> continuity_pt g c) ->
  exists c, a < c < b /\ (g b - g a) * f' c = (f b - f a) * g' c.
Proof.
  intros Hab Df Dg Cf Cg.
  assert (forall c, a < c < b -> derivable_pt f c) as pf.
  { intros c Hc. exists (f' c). apply is_derive_Reals. apply Df. exact Hc. }
  assert (forall c, a < c < b -> derivable_pt g c) as pg.
  { intros c Hc. exists (g' c). apply is_derive_Reals. apply Dg. exact Hc. }
  destruct (MVT f g a b pf pg Hab Cf Cg) as (c & P & E). exists c. split; [exact P|].
  assert (derive_pt f c (pf c P) = f' c) as <-.
  { apply derive_pt_eq_0. apply is_derive_Reals. apply Df. exact P. }
  assert (derive_pt g c (pg c P) = g' c) as <-.
  { apply derive_pt_eq_0. apply is_derive_Reals. apply Dg. exact P. }
  exact E.
Qed.

Lemma is_derive_cont (f : R -> R) (c d : R) : is_derive f c d -> continuity_pt f c.
Proof.
  intros H. apply derivable_continuous_pt. exists d. apply is_derive_Reals. exact H.
Qed.

(** punctured neighbourhoods, concretely *)
Lemma near_iff (a : R) (P : R -> Prop) : locally' a P <->
  exists eps, 0 < eps /\ forall t, Rabs (t - a) < eps -> t <> a -> P t.
Proof.
  split.
  - intros [eps H]. exists (pos eps). split; [apply cond_pos|]. intros t Ht N. exact (H t Ht N).
  - intros (eps & He & H). exists (mkposreal eps He). intros t Ht N. exact (H t Ht N).
Qed.

(** ** between two points on the same side: the Cauchy quotient *)
Lemma cauchy_between (f g f' g' : R -> R) (a eps : R) :
  (forall t, Rabs (t - a) < eps -> t <> a -> is_derive f t (f' t) /\ is_derive g t (g' t) /\ g' t <> 0) ->
  forall s t, s <> t -> Rabs (s - a) < eps -> Rabs (t - a) < eps -> 0 < (s - a) * (t - a) ->
  exists c, Rmin s t < c < Rmax s t /\ g s <> g t /\ (f s - f t) / (g s - g t) = f' c / g' c.
Proof.
  intros H.
  assert (forall s t, s < t -> Rabs (s - a) < eps -> Rabs (t - a) < eps -> 0 < (s - a) * (t - a) ->
    exists c, s < c < t /\ g s <> g t /\ (f s - f t) / (g s - g t) = f' c / g' c) as K.
  { intros s t Hst Hs Ht Hp.
    assert (forall c, s <= c <= t -> Rabs (c - a) < eps /\ c <> a) as Hc.
    { intros c Hc. split.
      - apply Rabs_def2 in Hs. apply Rabs_def2 in Ht. apply Rabs_def1; lra.
      - intros ->. assert ((s - a) * (t - a) <= 0); [|lra].
        replace 0 with (0 * (t - a)) by ring. apply Rmult_le_compat_r; lra. }
    assert (forall c, s <= c <= t -> is_derive f c (f' c) /\ is_derive g c (g' c) /\ g' c <> 0) as D.
    { intros c Hc'. destruct (Hc c Hc') as [H1 H2]. exact (H c H1 H2). }
    assert (g s <> g t) as Ng.
    { intros E. destruct (cauchy_mvt g (fun x => x) g' (fun _ => 1) s t Hst) as (c & Hc1 & E1).
      - intros c Hc'. apply (D c). lra.
      - intros c _. apply (is_derive_id (K := R_AbsRing)).
      - intros c Hc'. apply is_derive_cont with (g' c). apply (D c). exact Hc'.
      - intros c _. apply derivable_continuous_pt. apply derivable_pt_id.
      - rewrite E in E1. replace ((g t - g t) * 1) with 0 in E1 by ring.
        apply Rmult_integral in E1. destruct E1 as [E1|E1]; [lra|].
        destruct (D c ltac:(lra)) as (_ & _ & N). exact (N E1). }
    destruct (cauchy_mvt f g f' g' s t Hst) as (c & Hc1 & E1).
    - intros c Hc'. apply (D c). lra.
    - intros c Hc'. apply (D c). lra.
    - intros c Hc'. apply is_derive_cont with (f' c). apply (D c). exact Hc'.
    - intros c Hc'. apply is_derive_cont with (g' c). apply (D c). exact Hc'.
    - exists c. split; [exact Hc1|]. split; [exact Ng|]. destruct (D c ltac:(lra)) as (_ & _ & N).
      apply Rmult_eq_reg_r with ((g s - g t) * g' c); [|apply Rmult_integral_contrapositive_currified; lra].
      transitivity ((f s - f t) * g' c); [field; lra|]. transitivity ((g s - g t) * f' c); [|field; lra]. lra. }
  intros s t Nst Hs Ht Hp. destruct (Rlt_le_dec s t) as [L|L].
  - rewrite Rmin_left, Rmax_right by lra. apply K; assumption.
  - rewrite Rmin_right, Rmax_left by lra. destruct (K t s ltac:(lra) Ht Hs) as (c & Hc & N & E).
    + rewrite Rmult_comm. exact Hp.
    + exists c. split; [exact Hc|]. split; [auto|]. rewrite <- E. field. lra.
Qed.

(** ** 0/0 *)
Lemma lim_at (f : R -> R) (a l : R) : filterlim f (locally' a) (locally l) <->
  forall eps, 0 < eps -> exists d, 0 < d /\ forall t, Rabs (t - a) < d -> t <> a -> Rabs (f t - l) < eps.
Proof.
  split.
  - intros H eps He. assert (locally l (fun y => Rabs (y - l) < eps)) as L.
    { exists (mkposreal eps He). intros y Hy. exact Hy. }
    apply (proj1 (near_iff a _) (H _ L)).
  - intros H P [eps HP]. apply near_iff. destruct (H eps (cond_pos eps)) as (d & Hd & K).
    exists d. split; [exact Hd|]. intros t Ht N. apply HP. exact (K t Ht N).
Qed.

(** f/g at t is arbitrarily close to a Cauchy quotient between t and a; instead of extending
    f and g to a we let the second point tend to a *)
Theorem lhopital_00 (f g f' g' : R -> R) (a : R) :
  locally' a (fun t => is_derive f t (f' t)) -> locally' a (fun t => is_derive g t (g' t)) ->
  locally' a (fun t => g' t <> 0) -> locally' a (fun t => g t <> 0) ->
  filterlim f (locally' a) (locally 0) -> filterlim g (locally' a) (locally 0) ->
  forall G : (R -> Prop) -> Prop, filterlim (fun t => f' t / g' t) (locally' a) G ->
  filterlim (fun t => f t / g t) (locally' a) G.
Proof.
  intros Df Dg Ng' Ng Hf Hg G HG P HP. specialize (HG P HP). unfold filtermap in *.
  generalize (filter_and _ _ HG (filter_and _ _ Df (filter_and _ _ Dg (filter_and _ _ Ng' Ng)))).
  intros Hall. apply near_iff in Hall as (d & Hd & Hall). apply near_iff. exists d. split; [exact Hd|].
  (* extension by 0 at a *)
  set (f0 := fun t => if Req_EM_T t a then 0 else f t). set (g0 := fun t => if Req_EM_T t a then 0 else g t).
  assert (forall t, t <> a -> f0 t = f t) as Ef. { intros t N. unfold f0. destruct (Req_EM_T t a); [contradiction|reflexivity]. }
  assert (forall t, t <> a -> g0 t = g t) as Eg. { intros t N. unfold g0. destruct (Req_EM_T t a); [contradiction|reflexivity]. }
  assert (f0 a = 0) as Fa. { unfold f0. destruct (Req_EM_T a a); [reflexivity|contradiction]. }
  assert (g0 a = 0) as Ga. { unfold g0. destruct (Req_EM_T a a); [reflexivity|contradiction]. }
  assert (forall (h h0 : R -> R), (forall t, t <> a -> h0 t = h t) -> forall t, t <> a -> forall l : R,
    is_derive h t l -> is_derive h0 t l) as Dext.
  { intros h h0 E t N l H. apply (is_derive_ext_loc h h0); [|exact H].
    assert (0 < Rabs (t - a)) as Hp by (apply Rabs_pos_lt; lra).
    exists (mkposreal _ Hp). intros s Hs. symmetry. apply E. intros ->.
    unfold ball in Hs; cbn in Hs. unfold AbsRing_ball, abs, minus, plus, opp in Hs; cbn in Hs.
    rewrite Rabs_minus_sym in Hs. unfold Rminus in Hs. lra. }
  assert (forall (h h0 : R -> R), (forall t, t <> a -> h0 t = h t) -> h0 a = 0 ->
    filterlim h (locally' a) (locally 0) -> continuity_pt h0 a) as Cext.
  { intros h h0 E E0 H. apply continuity_pt_filterlim'. rewrite E0.
    apply (filterlim_ext_loc h h0); [|exact H].
    apply near_iff. exists 1. split; [lra|]. intros t _ N. symmetry. apply E. exact N. }
  intros t Ht N.
  assert (exists c, Rabs (c - a) < d /\ c <> a /\ g t * f' c = f t * g' c) as (c & Hc & Nc & E).
  { apply Rabs_def2 in Ht. destruct (Rlt_le_dec a t) as [L1|L1].
    - destruct (cauchy_mvt f0 g0 f' g' a t L1) as (c & Hc & E).
      + intros c Hc. apply (Dext f f0 Ef); [lra|]. apply Hall; [apply Rabs_def1; lra|lra].
      + intros c Hc. apply (Dext g g0 Eg); [lra|]. apply Hall; [apply Rabs_def1; lra|lra].
      + intros c Hc. destruct (Req_EM_T c a) as [->|Nc]; [apply (Cext f f0 Ef Fa Hf)|].
        apply is_derive_cont with (f' c). apply (Dext f f0 Ef); [lra|]. apply Hall; [apply Rabs_def1; lra|lra].
      + intros c Hc. destruct (Req_EM_T c a) as [->|Nc]; [apply (Cext g g0 Eg Ga Hg)|].
        apply is_derive_cont with (g' c). apply (Dext g g0 Eg); [lra|]. apply Hall; [apply Rabs_def1; lra|lra].
      + exists c. split; [apply Rabs_def1; lra|]. split; [lra|]. rewrite Fa, Ga, Ef, Eg in E by lra. lra.
    - assert (t < a) as L2 by lra. destruct (cauchy_mvt f0 g0 f' g' t a L2) as (c & Hc & E).
      + intros c Hc. apply (Dext f f0 Ef); [lra|]. apply Hall; [apply Rabs_def1; lra|lra].
      + intros c Hc. apply (Dext g g0 Eg); [lra|]. apply Hall; [apply Rabs_def1; lra|lra].
      + intros c Hc. destruct (Req_EM_T c a) as [->|Nc]; [apply (Cext f f0 Ef Fa Hf)|].
        apply is_derive_cont with (f' c). apply (Dext f f0 Ef); [lra|]. apply Hall; [apply Rabs_def1; lra|lra].
      + intros c Hc. destruct (Req_EM_T c a) as [->|Nc]; [apply (Cext g g0 Eg Ga Hg)|].
        apply is_derive_cont with (g' c). apply (Dext g g0 Eg); [lra|]. apply Hall; [apply Rabs_def1; lra|lra].
      + exists c. split; [apply Rabs_def1; lra|]. split; [lra|]. rewrite Fa, Ga, Ef, Eg in E by lra. lra. }
  destruct (Hall c Hc Nc) as (Pc & _ & _ & N' & _). destruct (Hall t Ht N) as (_ & _ & _ & _ & Ngt).
  replace (f t / g t) with (f' c / g' c); [exact Pc|].
  apply Rmult_eq_reg_r with (g t * g' c); [|apply Rmult_integral_contrapositive_currified; assumption].
  transitivity (g t * f' c); [field; assumption|]. rewrite E. field. assumption.
Qed.

(** ** anything / infinity *)
Lemma inf_at (f : R -> R) (a : R) : filterlim (fun t => Rabs (f t)) (locally' a) (Rbar_locally p_infty) <->
  forall M, exists d, 0 < d /\ forall t, Rabs (t - a) < d -> t <> a -> M < Rabs (f t).
Proof.
  split.
  - intros H M. apply (proj1 (near_iff a _)). apply (H (fun y => M < y)). exists M. auto.
  - intros H P [M HM]. unfold filtermap. apply near_iff. destruct (H M) as (d & Hd & K).
    exists d. split; [exact Hd|]. intros t Ht N. apply HM. exact (K t Ht N).
Qed.

(** the key decomposition: with a fixed point y on each side,
    f t / g t = q * (1 - g y / g t) + f y / g t for a value q of f'/g' near a *)
Lemma decomposition (f g f' g' : R -> R) (a : R) (P : R -> Prop) (r : R) :
  locally' a (fun t => is_derive f t (f' t)) -> locally' a (fun t => is_derive g t (g' t)) ->
  locally' a (fun t => g' t <> 0) ->
  filterlim (fun t => Rabs (g t)) (locally' a) (Rbar_locally p_infty) ->
  locally' a (fun t => P (f' t / g' t)) -> 0 < r ->
  locally' a (fun t => exists q u v, P q /\ Rabs u < r /\ Rabs v < r /\ f t / g t = q * (1 - u) + v).
Proof.
  intros Df Dg Ng' Hg HP Hr.
  generalize (filter_and _ _ HP (filter_and _ _ Df (filter_and _ _ Dg Ng'))).
  intros Hall. apply near_iff in Hall as (d & Hd & Hall).
  assert (forall y, 0 < Rabs (y - a) < d -> locally' a (fun t => 0 < (y - a) * (t - a) ->
    exists q u v, P q /\ Rabs u < r /\ Rabs v < r /\ f t / g t = q * (1 - u) + v)) as K.
  { intros y [Hy0 Hyd]. rewrite inf_at in Hg.
    destruct (Hg (Rmax (Rabs (g y)) (Rabs (f y)) / r)) as (d1 & Hd1 & Hbig).
    apply near_iff. exists (Rmin d1 (Rabs (y - a))). split; [apply Rmin_glb_lt; assumption|].
    intros t Ht N Hside.
    assert (Rabs (t - a) < d1) as Ht1. { eapply Rlt_le_trans; [exact Ht|apply Rmin_l]. }
    assert (Rabs (t - a) < Rabs (y - a)) as Ht2. { eapply Rlt_le_trans; [exact Ht|apply Rmin_r]. }
    assert (t <> y) as Nty. { intros ->. lra. }
    specialize (Hbig t Ht1 N).
    assert (0 < Rabs (g t)) as Pg.
    { eapply Rle_lt_trans; [|exact Hbig]. apply Rmult_le_pos; [|left; apply Rinv_0_lt_compat; assumption].
      eapply Rle_trans; [apply Rabs_pos|apply Rmax_l]. }
    assert (g t <> 0) as Ng. { intros E. rewrite E, Rabs_R0 in Pg. lra. }
    destruct (cauchy_between f g f' g' a d) with (s := t) (t := y) as (c & Hc & Ngg & E).
    - intros s Hs Ns. destruct (Hall s Hs Ns) as (_ & H1 & H2 & H3). auto.
    - exact Nty.
    - lra.
    - exact Hyd.
    - rewrite Rmult_comm. exact Hside.
    - assert (Rabs (c - a) < d /\ c <> a) as [Hcd Nca].
      { destruct (Rlt_le_dec 0 (y - a)) as [S1|S1].
        - assert (0 < t - a) as S2.
          { apply Rmult_lt_reg_l with (y - a); [exact S1|]. rewrite Rmult_0_r. exact Hside. }
          rewrite (Rabs_right (y - a)) in * by lra. rewrite (Rabs_right (t - a)) in * by lra.
          rewrite Rmin_left, Rmax_right in Hc by lra. split; [apply Rabs_def1; lra|lra].
        - assert (y - a < 0) as S1'. { destruct S1 as [S1|S1]; [exact S1|]. rewrite S1, Rabs_R0 in Hy0. lra. }
          assert (t - a < 0) as S2.
          { destruct (Rlt_le_dec (t - a) 0) as [S2|S2]; [exact S2|exfalso].
            assert ((y - a) * (t - a) <= 0); [|lra]. rewrite Rmult_comm.
            replace 0 with ((t - a) * 0) by ring. apply Rmult_le_compat_l; lra. }
          rewrite (Rabs_left (y - a)) in * by lra. rewrite (Rabs_left (t - a)) in * by lra.
          rewrite Rmin_right, Rmax_left in Hc by lra. split; [apply Rabs_def1; lra|lra]. }
      exists (f' c / g' c), (g y / g t), (f y / g t).
      assert (forall z, Rabs z <= Rmax (Rabs (g y)) (Rabs (f y)) -> Rabs (z / g t) < r) as Small.
      { intros z Hz. unfold Rdiv. rewrite Rabs_mult, Rabs_inv.
        apply Rmult_lt_reg_r with (Rabs (g t)); [exact Pg|].
        rewrite Rmult_assoc, Rinv_l, Rmult_1_r by lra. eapply Rle_lt_trans; [exact Hz|].
        apply Rmult_lt_reg_r with (/ r); [apply Rinv_0_lt_compat; exact Hr|].
        replace (r * Rabs (g t) * / r) with (Rabs (g t)) by (field; lra). exact Hbig. }
      split; [exact (proj1 (Hall c Hcd Nca))|]. split; [apply Small, Rmax_l|]. split; [apply Small, Rmax_r|].
      rewrite <- E. field. split; [exact Ng|lra]. }
  assert (0 < Rabs (a + d / 2 - a) < d) as Y1.
  { replace (a + d / 2 - a) with (d / 2) by ring. rewrite Rabs_right by lra. lra. }
  assert (0 < Rabs (a - d / 2 - a) < d) as Y2.
  { replace (a - d / 2 - a) with (- (d / 2)) by ring. rewrite Rabs_Ropp, Rabs_right by lra. lra. }
  pose proof (filter_and _ _ (K _ Y1) (K _ Y2)) as HH. apply near_iff in HH as (e & He & HH).
  apply near_iff. exists e. split; [exact He|]. intros t Ht N. destruct (HH t Ht N) as [H1 H2].
  destruct (Rlt_le_dec 0 (t - a)) as [S|S].
  - apply H1. replace (a + d / 2 - a) with (d / 2) by ring. apply Rmult_lt_0_compat; lra.
  - apply H2. replace (a - d / 2 - a) with (- (d / 2)) by ring.
    replace (- (d / 2) * (t - a)) with (d / 2 * (a - t)) by ring. apply Rmult_lt_0_compat; lra.
Qed.

Theorem lhopital_inf_finite (f g f' g' : R -> R) (a L : R) :
  locally' a (fun t => is_derive f t (f' t)) -> locally' a (fun t => is_derive g t (g' t)) ->
  locally' a (fun t => g' t <> 0) ->
  filterlim (fun t => Rabs (g t)) (locally' a) (Rbar_locally p_infty) ->
  filterlim (fun t => f' t / g' t) (locally' a) (locally L) ->
  filterlim (fun t => f t / g t) (locally' a) (locally L).
Proof.
  intros Df Dg Ng' Hg HL P [eps HP]. unfold filtermap.
  set (e := eps). assert (0 < e) as He by apply cond_pos.
  set (r := Rmin 1 (e / (4 * (Rabs L + 2)))).
  pose proof (Rabs_pos L) as PL.
  assert (0 < r) as Hr. { apply Rmin_glb_lt; [lra|]. apply Rdiv_lt_0_compat; lra. }
  assert (r * (Rabs L + 2) <= e / 4) as Hr2.
  { apply Rle_trans with (e / (4 * (Rabs L + 2)) * (Rabs L + 2)).
    - apply Rmult_le_compat_r; [lra|apply Rmin_r].
    - right. field. lra. }
  assert (locally' a (fun t => (fun q => Rabs (q - L) < Rmin 1 (e / 4)) (f' t / g' t))) as Hq.
  { apply (HL (fun q => Rabs (q - L) < Rmin 1 (e / 4))). assert (0 < Rmin 1 (e / 4)) as H by (apply Rmin_glb_lt; lra).
    exists (mkposreal _ H). intros y Hy. exact Hy. }
  generalize (decomposition f g f' g' a _ r Df Dg Ng' Hg Hq Hr). apply filter_imp.
  intros t (q & u & v & Hq1 & Hu & Hv & E). apply HP.
  change (Rabs (f t / g t - L) < eps). rewrite E.
  assert (Rabs (q - L) < 1) as Hq2. { eapply Rlt_le_trans; [exact Hq1|apply Rmin_l]. }
  assert (Rabs (q - L) < e / 4) as Hq3. { eapply Rlt_le_trans; [exact Hq1|apply Rmin_r]. }
  replace (q * (1 - u) + v - L) with ((q - L) + (- (q * u) + v)) by ring.
  pose proof (Rabs_triang (q - L) (- (q * u) + v)) as T1. pose proof (Rabs_triang (- (q * u)) v) as T2.
  rewrite Rabs_Ropp, Rabs_mult in T2.
  assert (Rabs q <= Rabs L + 1) as Hqb.
  { pose proof (Rabs_triang (q - L) L) as T. replace (q - L + L) with q in T by ring. lra. }
  assert (Rabs q * Rabs u <= (Rabs L + 1) * r) as Hm.
  { apply Rmult_le_compat; try apply Rabs_pos; lra. }
  assert ((Rabs L + 1) * r + r <= e / 4) as Hs. { replace ((Rabs L + 1) * r + r) with (r * (Rabs L + 2)) by ring. exact Hr2. }
  fold e. lra.
Qed.

Theorem lhopital_inf_inf (f g f' g' : R -> R) (a : R) :
  locally' a (fun t => is_derive f t (f' t)) -> locally' a (fun t => is_derive g t (g' t)) ->
  locally' a (fun t => g' t <> 0) ->
  filterlim (fun t => Rabs (g t)) (locally' a) (Rbar_locally p_infty) ->
  filterlim (fun t => Rabs (f' t / g' t)) (locally' a) (Rbar_locally p_infty) ->
  filterlim (fun t => Rabs (f t / g t)) (locally' a) (Rbar_locally p_infty).
Proof.
  intros Df Dg Ng' Hg HL P [M HM]. unfold filtermap.
  assert (locally' a (fun t => (fun q => 2 * (Rmax M 0 + 1) < Rabs q) (f' t / g' t))) as Hq.
  { apply (HL (fun y => 2 * (Rmax M 0 + 1) < y)). exists (2 * (Rmax M 0 + 1)). auto. }
  generalize (decomposition f g f' g' a _ (1 / 2) Df Dg Ng' Hg Hq ltac:(lra)). apply filter_imp.
  intros t (q & u & v & Hq1 & Hu & Hv & E). apply HM. rewrite E.
  pose proof (Rabs_triang (q * (1 - u) + v) (- v)) as T. replace (q * (1 - u) + v + - v) with (q * (1 - u)) in T by ring.
  rewrite Rabs_Ropp, Rabs_mult in T. apply Rabs_def2 in Hu.
  assert (1 / 2 <= Rabs (1 - u)) as Hu2. { rewrite Rabs_right; lra. }
  assert (Rabs q * (1 / 2) <= Rabs q * Rabs (1 - u)) as Hm.
  { apply Rmult_le_compat_l; [apply Rabs_pos|exact Hu2]. }
  pose proof (Rmax_l M 0). lra.
Qed.
