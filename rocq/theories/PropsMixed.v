(** * PropsMixed: accuracy of arithmetic mixing integers, fractions and floats (C88) *)
From Coq Require Import ZArith QArith List String Bool Lia Lra Psatz.
From Coq Require Import Reals Qreals.
From Coq Require Import Floats.SpecFloat.
From Flocq Require Import Core BinarySingleNaN Relative.
From Verif Require Import Base Float Rational SmartNum Ast Compute Spec SpecR SpecF SpecAcc SpecHeight SpecMixed.
From Verif Require Import BaseProofs RationalProofs NumProofs NumProofs2 FloatProofs FloatNum FloatNum2 ConstProofs TreeProofs TreeProofs2 RealProofs PropsHeight PropsAcc.
Open Scope R_scope.

(** ** error factors *)
Definition good (k : nat) (t : R) : Prop := (1 - u) ^ k <= t <= / (1 - u) ^ k.

Lemma q_pos k : 0 < (1 - u) ^ k.
Proof. pose proof u_small. apply pow_lt. lra. Qed.
Lemma q_le k : (1 - u) ^ k <= 1.
Proof. pose proof u_small as U. induction k as [|k IH]; [cbn; lra|]. cbn [pow]. pose proof (q_pos k). nra. Qed.
Lemma good_0 : good 0 1. Proof. unfold good. cbn [pow]. lra. Qed.
Lemma good_pos k t : good k t -> 0 < t.
Proof. intros [A _]. pose proof (q_pos k). lra. Qed.
Lemma good_S k t : good k t -> good (S k) t.
Proof.
  intros [A B]. pose proof (q_pos k) as P. pose proof u_small as U. unfold good. cbn [pow]. split; [nra|].
  apply Rle_trans with (1 := B). apply Rinv_le_contravar; nra.
Qed.
Lemma good_le i k t : (i <= k)%nat -> good i t -> good k t.
Proof. induction 1; [auto|]. intros G. apply good_S. auto. Qed.
Lemma good_mul i j s t : good i s -> good j t -> good (i + j) (s * t).
Proof.
  intros G H. pose proof (good_pos _ _ G). pose proof (good_pos _ _ H). destruct G as [A B], H as [C D].
  pose proof (q_pos i). pose proof (q_pos j). unfold good. rewrite pow_add, Rinv_mult. split; apply Rmult_le_compat; try lra.
Qed.
Lemma good_inv i t : good i t -> good i (/ t).
Proof.
  intros G. pose proof (good_pos _ _ G) as P. destruct G as [A B]. pose proof (q_pos i) as Q. split.
  - rewrite <- (Rinv_inv ((1 - u) ^ i)). apply Rinv_le_contravar; [exact P|exact B].
  - apply Rinv_le_contravar; [exact Q|exact A].
Qed.
(** a weighted mean of two good factors *)
Lemma good_mean k s t v w : 0 < v * w -> good k s -> good k t -> exists r, good k r /\ v * s + w * t = (v + w) * r.
Proof.
  intros P [A B] [C D]. unfold good. set (hi := / (1 - u) ^ k) in *. set (lo := (1 - u) ^ k) in *.
  clearbody lo hi.
  assert (0 < v /\ 0 < w \/ v < 0 /\ w < 0) as VW.
  { destruct (Rtotal_order v 0) as [V|[V|V]]; [right|rewrite V in P; lra|left]; (split; [lra|]); nra. }
  assert (v + w <> 0) as N by lra.
  exists ((v * s + w * t) / (v + w)). split; [|field; exact N].
  destruct VW as [[V W]|[V W]].
  - split; [apply Rmult_le_reg_r with (v + w); [lra|]|apply Rmult_le_reg_r with (v + w); [lra|]];
      replace ((v * s + w * t) / (v + w) * (v + w)) with (v * s + w * t) by (field; lra);
      [assert (0 <= v * (s - lo)) by nra; assert (0 <= w * (t - lo)) by nra|assert (0 <= v * (hi - s)) by nra; assert (0 <= w * (hi - t)) by nra]; nra.
  - split; [apply Rmult_le_reg_r with (- (v + w)); [lra|]|apply Rmult_le_reg_r with (- (v + w)); [lra|]];
      replace ((v * s + w * t) / (v + w) * - (v + w)) with (- (v * s + w * t)) by (field; lra);
      [assert (0 <= - v * (s - lo)) by nra; assert (0 <= - w * (t - lo)) by nra|assert (0 <= - v * (hi - s)) by nra; assert (0 <= - w * (hi - t)) by nra]; nra.
Qed.

Lemma good_small k t : (Z.of_nat k <= 2 ^ 40)%Z -> good k t -> 1 / 2 <= t <= 2.
Proof.
  intros K [A B]. pose proof (pow_q_bounds k K) as Q. split; [lra|]. apply Rle_trans with (1 := B).
  replace 2 with (/ (1 / 2)) by field. apply Rinv_le_contravar; lra.
Qed.

(** one rounding *)
Lemma round_good r f : rounds_to r f -> / 2 ^ 1000 / 4 <= Rabs r -> Rabs r <= 2 ^ 1000 * 4 ->
  is_f64 f /\ f_finite f /\ exists t, good 1 t /\ fR f = r * t.
Proof.
  intros R L H. pose proof big_pow. pose proof small_pow. pose proof u_small as U.
  assert (0 < / 2 ^ 1000) by (apply Rinv_0_lt_compat, pow_lt; lra).
  pose proof (rounds_to_rel r f R ltac:(lra) ltac:(lra)) as E. rewrite <- u_u53 in E.
  split; [apply R|]. split; [apply R; lra|].
  assert (r <> 0) as N by (intros ->; rewrite Rabs_R0 in L; lra).
  exists (fR f / r). split; [|field; exact N].
  assert (Rabs (fR f / r - 1) <= u) as B.
  { replace (fR f / r - 1) with ((fR f - r) / r) by (field; exact N). unfold Rdiv. rewrite Rabs_mult, Rabs_inv.
    apply Rmult_le_reg_r with (Rabs r); [lra|]. rewrite Rmult_assoc, Rinv_l by lra. lra. }
  assert (1 + u <= / (1 - u)).
  { apply Rmult_le_reg_r with (1 - u); [lra|]. rewrite Rinv_l by lra. nra. }
  unfold good. rewrite pow_1. revert B. unfold Rabs. destruct Rcase_abs; lra.
Qed.

(** ** conversion of an exact number: three roundings *)
Lemma int_good z : (0 < z < two64)%Z -> f_finite (f_of_Z z) /\ exists t, good 1 t /\ fR (f_of_Z z) = IZR z * t.
Proof.
  intros Hz. assert (1 <= IZR z) by (apply (IZR_le 1); lia). assert (IZR z < IZR two64) by (apply IZR_lt; lia).
  assert (IZR two64 <= 2 ^ 1000) by (rewrite pow_IZR; apply IZR_le; vm_compute; discriminate).
  assert (/ 2 ^ 1000 <= 1) by (rewrite <- Rinv_1; apply Rinv_le_contravar; lra).
  destruct (round_good (IZR z) (f_of_Z z) (f_of_Z_rounds z)) as (_ & F & G); [rewrite Rabs_pos_eq; lra|rewrite Rabs_pos_eq; lra|].
  split; [exact F|exact G].
Qed.

Lemma neg_good z : (- two64 < z < two64)%Z -> z <> 0%Z -> f_finite (f_of_Z z) /\ exists t, good 1 t /\ fR (f_of_Z z) = IZR z * t.
Proof.
  intros Hz N. assert (1 <= Rabs (IZR z)) by (rewrite <- abs_IZR; apply (IZR_le 1); lia).
  assert (Rabs (IZR z) < IZR two64) by (rewrite <- abs_IZR; apply IZR_lt; lia).
  assert (IZR two64 <= 2 ^ 1000) by (rewrite pow_IZR; apply IZR_le; vm_compute; discriminate).
  assert (/ 2 ^ 1000 <= 1) by (rewrite <- Rinv_1; apply Rinv_le_contravar; lra).
  destruct (round_good (IZR z) (f_of_Z z) (f_of_Z_rounds z)) as (_ & F & G); [lra|lra|].
  split; [exact F|exact G].
Qed.

Lemma rat_good s n d : (s = 1 \/ s = -1)%Z -> (0 < n < two64)%Z -> (0 < d < two64)%Z ->
  f_finite (f_div (f_mul (f_of_Z s) (f_of_Z n)) (f_of_Z d)) /\
  exists t, good 3 t /\ fR (f_div (f_mul (f_of_Z s) (f_of_Z n)) (f_of_Z d)) = IZR s * (IZR n / IZR d) * t.
Proof.
  intros Hs Hn Hd.
  destruct (f_of_Z_exact_small s) as [Fs Es]; [lia|].
  destruct (int_good n Hn) as [Fn (tn & Gn & En)]. destruct (int_good d Hd) as [Fd (td & Gd & Ed)].
  pose proof (f_mul_rounds _ _ (f_of_Z_is s) (f_of_Z_is n) Fs Fn) as P. rewrite Es in P.
  assert (f_finite (f_mul (f_of_Z s) (f_of_Z n)) /\ fR (f_mul (f_of_Z s) (f_of_Z n)) = IZR s * fR (f_of_Z n)) as [Fp Ep].
  { destruct Hs as [-> | ->].
    - apply (rounds_to_exact _ _ (f_of_Z n) P (f_of_Z_is n) Fn). ring.
    - apply (rounds_to_exact _ _ (f_neg (f_of_Z n)) P (f_neg_is _ (f_of_Z_is n)) (f_neg_finite _ Fn)).
      rewrite fR_neg. ring. }
  assert (Pn : 1 <= IZR n) by (apply (IZR_le 1); lia). assert (Pd : 1 <= IZR d) by (apply (IZR_le 1); lia).
  assert (Ln : IZR n < IZR two64) by (apply IZR_lt; lia). assert (Ld : IZR d < IZR two64) by (apply IZR_lt; lia).
  pose proof (good_small 1 tn ltac:(cbn; lia) Gn) as Bn. pose proof (good_small 1 td ltac:(cbn; lia) Gd) as Bd.
  assert (0 < fR (f_of_Z d)) as PD by (rewrite Ed; nra).
  pose proof (f_div_rounds _ _ (proj1 P) (f_of_Z_is d) Fp Fd ltac:(lra)) as Q. rewrite Ep, En, Ed in Q.
  set (w := IZR s * (IZR n * tn) / (IZR d * td)) in Q.
  assert (w = IZR s * (IZR n / IZR d) * (tn * / td)) as Ew by (unfold w; field; nra).
  assert (Rabs w = IZR n * tn / (IZR d * td)) as Aw.
  { unfold w, Rdiv. rewrite Rmult_assoc, Rabs_mult, Rabs_pos_eq with (x := _ * / _).
    - destruct Hs as [-> | ->]; [rewrite Rabs_R1|rewrite Rabs_left by lra]; ring.
    - left. apply Rmult_lt_0_compat; [nra|]. apply Rinv_0_lt_compat. nra. }
  assert (/ IZR two64 / 4 <= Rabs w <= IZR two64 * 4) as [W1 W2].
  { rewrite Aw. assert (0 < IZR two64) by lra. split.
    - apply Rmult_le_reg_r with (IZR d * td); [nra|]. replace (IZR n * tn / (IZR d * td) * (IZR d * td)) with (IZR n * tn) by (field; nra).
      apply Rle_trans with (1 / 2); [|nra]. apply Rmult_le_reg_r with (IZR two64); [lra|].
      replace (/ IZR two64 / 4 * (IZR d * td) * IZR two64) with (IZR d * td / 4) by (field; lra). nra.
    - apply Rmult_le_reg_r with (IZR d * td); [nra|]. replace (IZR n * tn / (IZR d * td) * (IZR d * td)) with (IZR n * tn) by (field; nra).
      assert (1 / 2 <= IZR d * td) by nra. nra. }
  assert (IZR two64 <= 2 ^ 1000) as TT by (rewrite pow_IZR; apply IZR_le; vm_compute; discriminate).
  assert (/ 2 ^ 1000 <= / IZR two64) by (apply Rinv_le_contravar; lra).
  destruct (round_good w _ Q ltac:(lra) ltac:(lra)) as (_ & F & t & Gt & Et).
  split; [exact F|]. exists (tn * / td * t). split; [|rewrite Et, Ew; ring].
  exact (good_mul 2 1 _ _ (good_mul 1 1 _ _ Gn (good_inv 1 _ Gd)) Gt).
Qed.

Lemma exact_good x q : num_ok x -> exact_Q x = Some q -> Q2R q <> 0 ->
  f_finite (val_f64 (nval x)) /\ exists t, good 3 t /\ fR (val_f64 (nval x)) = Q2R q * t.
Proof.
  intros [I0 _] H N. unfold exact_Q in H. destruct (nval x) as [z|r|f] eqn:E; [| |discriminate].
  - simpl in H. injection H as <-. cbn [val_f64]. rewrite Q2R_Z in *. simpl in I0.
    unfold in_i64 in I0. apply andb_prop in I0 as [A C]. apply Z.leb_le in A. apply Z.ltb_lt in C.
    destruct (neg_good z) as [F (t & G & K)]; [unfold two63, two64 in *; lia|intros ->; apply N; reflexivity|].
    split; [exact F|]. exists t. split; [exact (good_le 1 3 t ltac:(lia) G)|exact K].
  - cbn [val_Q] in H. destruct (rden r =? 0)%Z eqn:Ed; [discriminate|]. injection H as <-.
    apply Z.eqb_neq in Ed. destruct I0 as [[Is [In Id]] Iz].
    assert (Eq : Q2R (ratQ r) = IZR (rsign r) * (IZR (rnum r) / IZR (rden r))).
    { unfold ratQ, Q2R. cbn [Qnum Qden]. rewrite Z2Pos.id by lia. rewrite mult_IZR. unfold Rdiv. ring. }
    assert (rnum r <> 0%Z) as Nn by (intros K; apply N; rewrite Eq, K; unfold Rdiv; ring).
    assert (rsign r = 1 \/ rsign r = -1)%Z as Hs.
    { destruct Is as [Is|[Is|[Is _]]]; auto. exfalso. apply Ed, Iz, Is. }
    rewrite Eq. exact (rat_good (rsign r) (rnum r) (rden r) Hs ltac:(lia) ltac:(lia)).
Qed.

(** ** the invariant of an evaluated part *)
Definition part_num (fl : bool) (n : snum) (v : R) (k : nat) : Prop :=
  num_ok n /\ val_valid (nval n) /\ (fl = true -> f64_backed n) /\ f_finite (val_f64 (nval n)) /\
  exists t, good k t /\ fR (val_f64 (nval n)) = v * t.

Lemma backed_tag n : num_ok n -> f64_backed n -> sn_is_zero n = false /\ sn_is_one n = false.
Proof.
  intros O (f & E). split.
  - destruct (sn_is_zero n) eqn:Z; [|reflexivity]. pose proof (ok_zero n O Z) as K. rewrite E in K. discriminate.
  - destruct (sn_is_one n) eqn:Z; [|reflexivity]. pose proof (ok_one n O Z) as K. rewrite E in K. discriminate.
Qed.

Lemma part_nonzero fl n v k : part_num fl n v k -> v <> 0 -> sn_is_zero n = false /\ val_is_zero (nval n) = false.
Proof.
  intros (O & _ & _ & _ & t & G & E) N. pose proof (good_pos _ _ G) as P.
  assert (val_is_zero (nval n) = false) as V.
  { destruct (val_is_zero (nval n)) eqn:Z; [|reflexivity]. destruct (val_zero_f64 _ (proj1 O) Z) as [_ K]. rewrite K in E. nra. }
  split; [|exact V]. destruct (sn_is_zero n) eqn:Z; [|reflexivity]. rewrite (ok_zero n O Z) in V. discriminate.
Qed.

(** the stored result of an operation with one rounding *)
Lemma part_real m z c k v w : (Z.of_nat (S k) <= 2 ^ 40)%Z -> / 2 ^ 1000 <= Rabs v <= 2 ^ 1000 -> real_build m ->
  num_ok z -> f64_backed z -> sn_to_f64 m z = Ok c -> rounds_to w c -> (exists t, good k t /\ w = v * t) -> part_num true z v (S k).
Proof.
  intros K V Hm O B S R (t & G & E). rewrite sn_to_f64_eq in S by assumption. injection S as <-.
  pose proof (good_small k t ltac:(lia) G) as T.
  assert (Rabs w = Rabs v * t) as Aw by (rewrite E, Rabs_mult, (Rabs_pos_eq t) by lra; reflexivity).
  assert (0 < / 2 ^ 1000) by (apply Rinv_0_lt_compat, pow_lt; lra).
  destruct (round_good w _ R) as (I & F & s & Gs & Es); [rewrite Aw; nra|rewrite Aw; nra|].
  split; [exact O|]. split; [destruct B as (f & Ef); rewrite Ef in *; exact I|]. split; [auto|]. split; [exact F|].
  exists (t * s). split; [|rewrite Es, E; ring]. replace (S k) with (k + 1)%nat by lia. exact (good_mul k 1 t s G Gs).
Qed.

Lemma moderate_abs_mk2 t a b : moderate_abs (mk2 t a b) -> moderate_abs a /\ moderate_abs b.
Proof.
  intros H. split; intros rho s v S E; apply (H rho s v); try exact E; apply sub_child with (2 := S); cbn; auto.
Qed.
Lemma moderate_abs_mk1 t a : moderate_abs (mk1 t a) -> moderate_abs a.
Proof. intros H rho s v S E. apply (H rho s v); [|exact E]. apply sub_child with (2 := S). cbn; auto. Qed.

Section Step.
Variable m : mode.
Hypothesis Hm : real_build m.
Variables (x y : bool) (n n' : snum) (v w : R) (i j : nat).
Hypothesis Px : part_num x n v i.
Hypothesis Py : part_num y n' w j.
Hypothesis XY : x || y = true.
Hypothesis Nv : v <> 0.
Hypothesis Nw : w <> 0.

Lemma step_backed : f64_backed n \/ f64_backed n'.
Proof.
  apply orb_prop in XY as [-> | ->]; [left; apply Px|right; apply Py]; reflexivity.
Qed.
Lemma step_not_zero : sn_is_zero n = false /\ sn_is_zero n' = false /\ val_is_zero (nval n) = false /\ val_is_zero (nval n') = false.
Proof.
  destruct (part_nonzero _ _ _ _ Px Nv) as [A B]. destruct (part_nonzero _ _ _ _ Py Nw) as [C D]. auto.
Qed.

Lemma step_add : 0 < v * w -> (Z.of_nat (S (max i j)) <= 2 ^ 40)%Z -> / 2 ^ 1000 <= Rabs (v + w) <= 2 ^ 1000 ->
  exists z, sn_add m n n' = Ok z /\ part_num true z (v + w) (S (max i j)).
Proof.
  intros P K M. destruct step_not_zero as (Zn & Zn' & _ & _). pose proof step_backed as B.
  pose proof Px as (On & Vn & _ & Fn & t & Gt & Et). pose proof Py as (On' & Vn' & _ & Fn' & s & Gs & Es).
  destruct (sn_add_rounds m Hm n n' On On' Vn Vn' B Fn Fn') as (z & c & Ez & Ec & R).
  exists z. split; [exact Ez|]. apply (part_real m z c (max i j) (v + w) (fR (val_f64 (nval n)) + fR (val_f64 (nval n'))) K M Hm); [exact (sn_add_ok m n n' z On On' Ez)| |exact Ec|exact R|].
  - unfold sn_add in Ez. rewrite Zn, Zn', guard_real, val_add_real in Ez by auto using backed_real. cbn [bind] in Ez. injection Ez as <-.
    rewrite wrap_real. eexists. reflexivity.
  - rewrite Et, Es. exact (good_mean _ t s v w P (good_le i _ t (Nat.le_max_l i j) Gt) (good_le j _ s (Nat.le_max_r i j) Gs)).
Qed.
Lemma step_sub : v * w < 0 -> (Z.of_nat (S (max i j)) <= 2 ^ 40)%Z -> / 2 ^ 1000 <= Rabs (v - w) <= 2 ^ 1000 ->
  exists z, sn_sub m n n' = Ok z /\ part_num true z (v - w) (S (max i j)).
Proof.
  intros P K M. destruct step_not_zero as (Zn & Zn' & _ & _). pose proof step_backed as B.
  pose proof Px as (On & Vn & _ & Fn & t & Gt & Et). pose proof Py as (On' & Vn' & _ & Fn' & s & Gs & Es).
  destruct (sn_sub_rounds m Hm n n' On On' Vn Vn' B Fn Fn') as (z & c & Ez & Ec & R).
  exists z. split; [exact Ez|]. apply (part_real m z c (max i j) (v - w) (fR (val_f64 (nval n)) - fR (val_f64 (nval n'))) K M Hm); [exact (sn_sub_ok m n n' z On On' Ez)| |exact Ec|exact R|].
  - unfold sn_sub in Ez. rewrite Zn, Zn', guard_real, val_sub_real in Ez by auto using backed_real. cbn [bind] in Ez. injection Ez as <-.
    rewrite wrap_real. eexists. reflexivity.
  - rewrite Et, Es. destruct (good_mean _ t s v (- w) ltac:(nra) (good_le i _ t (Nat.le_max_l i j) Gt) (good_le j _ s (Nat.le_max_r i j) Gs)) as (r & Gr & Er).
    exists r. split; [exact Gr|]. unfold Rminus. rewrite <- Er. ring.
Qed.
Lemma step_mul : (Z.of_nat (S (i + j)) <= 2 ^ 40)%Z -> / 2 ^ 1000 <= Rabs (v * w) <= 2 ^ 1000 ->
  exists z, sn_mul m n n' = Ok z /\ part_num true z (v * w) (S (i + j)).
Proof.
  intros K M. destruct step_not_zero as (_ & _ & Zn & Zn'). pose proof step_backed as B.
  pose proof Px as (On & Vn & _ & Fn & t & Gt & Et). pose proof Py as (On' & Vn' & _ & Fn' & s & Gs & Es).
  destruct (sn_mul_rounds m Hm n n' On On' Vn Vn' B Fn Fn') as (z & c & Ez & Ec & R).
  exists z. split; [exact Ez|]. apply (part_real m z c (i + j) (v * w) (fR (val_f64 (nval n)) * fR (val_f64 (nval n'))) K M Hm); [exact (sn_mul_ok m n n' z On On' Ez)| |exact Ec|exact R|].
  - unfold sn_mul in Ez. destruct (sn_is_one n) eqn:O1.
    { injection Ez as <-. destruct B as [B|B]; [|exact B]. destruct (backed_tag n On B) as [_ K1]. congruence. }
    destruct (sn_is_one n') eqn:O2.
    { injection Ez as <-. destruct B as [B|B]; [exact B|]. destruct (backed_tag n' On' B) as [_ K1]. congruence. }
    rewrite guard_real, val_mul_real in Ez by auto using backed_real. cbn [bind] in Ez. injection Ez as <-.
    rewrite wrap_real. eexists. reflexivity.
  - rewrite Et, Es. exists (t * s). split; [exact (good_mul i j t s Gt Gs)|ring].
Qed.
Lemma step_div : (Z.of_nat (S (i + j)) <= 2 ^ 40)%Z -> / 2 ^ 1000 <= Rabs (v / w) <= 2 ^ 1000 ->
  exists z, sn_div m n n' = Ok z /\ part_num true z (v / w) (S (i + j)).
Proof.
  intros K M. destruct step_not_zero as (_ & _ & Zn & Zn'). pose proof step_backed as B.
  pose proof Px as (On & Vn & _ & Fn & t & Gt & Et). pose proof Py as (On' & Vn' & _ & Fn' & s & Gs & Es).
  pose proof (good_pos _ _ Gs) as Ps.
  assert (fR (val_f64 (nval n')) <> 0) as Nb by (rewrite Es; apply Rmult_integral_contrapositive_currified; lra).
  destruct (sn_div_rounds m Hm n n' On Vn Vn' B Fn Fn' Nb) as (z & c & Ez & Ec & R).
  exists z. split; [exact Ez|]. apply (part_real m z c (i + j) (v / w) (fR (val_f64 (nval n)) / fR (val_f64 (nval n'))) K M Hm); [exact (sn_div_ok m n n' z On On' Ez)| |exact Ec|exact R|].
  - unfold sn_div in Ez. rewrite guard_real, val_div_real in Ez by auto using backed_real. cbn [bind] in Ez. injection Ez as <-.
    rewrite wrap_real. eexists. reflexivity.
  - rewrite Et, Es. exists (t * / s). split; [exact (good_mul i j t _ Gt (good_inv j s Gs))|field; lra].
Qed.
End Step.

Lemma const_part n r f : num_ok n -> nval n = Real f -> is_f64 f -> rounds_to r f -> / 2 ^ 1000 <= Rabs r <= 2 ^ 1000 -> part_num true n r 1.
Proof.
  intros O E I R M. split; [exact O|]. rewrite E. split; [exact I|]. split; [intros _; exists f; exact E|].
  assert (0 < / 2 ^ 1000) by (apply Rinv_0_lt_compat, pow_lt; lra).
  destruct (round_good r f R ltac:(lra) ltac:(lra)) as (_ & F & t & G & K). split; [exact F|]. exists t. auto.
Qed.

Lemma mixed_agg m fl e k rho : real_build m -> mixed fl e k -> (Z.of_nat k <= 2 ^ 40)%Z -> moderate_abs e ->
  exists n v, num_aggregate m e = Ok (e_num n) /\ part_num fl n v k /\ eval rho e = Some v /\ v <> 0.
Proof.
  intros Hm H.
  assert (forall v, / 2 ^ 1000 <= Rabs v <= 2 ^ 1000 -> v <> 0) as NZ.
  { intros v M ->. rewrite Rabs_R0 in M. assert (0 < / 2 ^ 1000) by (apply Rinv_0_lt_compat, pow_lt; lra). lra. }
  induction H as [e (Ea & He & De)|f If Ff Nf| | |a i Ha IHa|x y a b i j Ha IHa Hb IHb XY S|x y a b i j Ha IHa Hb IHb XY S|x y a b i j Ha IHa Hb IHb XY|x y a b i j Ha IHa Hb IHb XY]; intros K M.
  - destruct (De rho) as (v & Ev & Nv). destruct (agg_height e Ea rho v Ev He) as (n & A & B & R).
    destruct (nbd_exact n _ B) as (q & Q & R' & L). rewrite R in R'. injection R' as ->.
    destruct (exact_good n q (proj1 B) Q Nv) as (F & t & G & E).
    exists n, (Q2R q). split; [destruct Hm as [-> | ->]; [apply (agg_mono Strict Debug I e _ A)|apply (agg_mono Strict Release I e _ A)]|].
    split; [|split; assumption]. split; [exact (proj1 B)|]. split.
    { destruct B as (_ & _ & B). destruct (nval n); [exact I|exact I|contradiction]. }
    split; [discriminate|]. split; [exact F|]. exists t. auto.
  - exists (sn_of_f64 f), (fR f). split; [reflexivity|]. split.
    + split; [apply (api_number_ok m), An_f64, If|]. split; [exact If|]. split; [intros _; exists f; reflexivity|]. split; [exact Ff|].
      exists 1. split; [apply good_0|]. cbn. ring.
    + split; [|exact Nf]. cbn [eval e_num]. unfold num_R, fR. cbn. destruct f; try contradiction; reflexivity.
  - pose proof (M rho _ PI (sub_refl _) eq_refl) as V. exists sn_pi, PI. split; [reflexivity|].
    split; [|split; [reflexivity|apply NZ, V]].
    exact (const_part sn_pi PI f_PI (api_number_ok m _ (An_pi m)) eq_refl (proj1 rounds_PI) rounds_PI V).
  - pose proof (M rho _ (exp 1) (sub_refl _) eq_refl) as V. exists sn_e, (exp 1). split; [reflexivity|].
    split; [|split; [reflexivity|apply NZ, V]].
    exact (const_part sn_e (exp 1) f_E (api_number_ok m _ (An_e m)) eq_refl (proj1 rounds_E) rounds_E V).
  - destruct (IHa K (moderate_abs_mk1 ONeg a M)) as (n & v & En & P & Ev & Nv).
    pose proof P as (On & Vn & Bn & Fn & t & Gt & Et). destruct (Bn eq_refl) as (f & Ef). rewrite Ef in Vn, Fn, Et. cbn [val_valid val_f64] in *.
    assert (sn_neg m n = Ok (mkNum (Real (f_neg f)) TNothing)) as En' by (unfold sn_neg; rewrite guard_real, Ef by assumption; reflexivity).
    exists (mkNum (Real (f_neg f)) TNothing), (- v). split.
    { unfold e_neg. rewrite agg_mk1, En by reflexivity. cbn [bind eval_rule]. unfold neg_eval_rule.
      cbn [pop_unwrap pop bind is_num e_num root to_smart_num_unwrap to_smart_num]. cbn. rewrite En'. reflexivity. }
    split; [|split; [unfold e_neg; rewrite eval_mk1, Ev; reflexivity|lra]].
    split; [exact (sn_neg_ok m n _ On En')|]. split; [exact (f_neg_is f Vn)|]. split; [intros _; eexists; reflexivity|]. split; [exact (f_neg_finite f Fn)|].
    exists t. split; [exact Gt|]. cbn [nval val_f64]. rewrite fR_neg, Et. ring.
  - destruct (moderate_abs_mk2 OAdd a b M) as [Ma Mb].
    destruct (IHa ltac:(lia) Ma) as (n & v & En & Pv & Ev & Nv). destruct (IHb ltac:(lia) Mb) as (n' & w & En' & Pw & Ew & Nw).
    assert (eval rho (e_add a b) = Some (v + w)) as E by (unfold e_add; rewrite eval_mk2, Ev, Ew; reflexivity).
    pose proof (M rho _ _ (sub_refl _) E) as V.
    destruct (step_add m Hm x y n n' v w i j Pv Pw XY Nv Nw (S rho v w Ev Ew) K V) as (z & Ez & Pz).
    exists z, (v + w). split; [exact (agg_num2 m OAdd a b n n' z eq_refl En En' Ez)|]. split; [exact Pz|]. split; [exact E|apply NZ, V].
  - destruct (moderate_abs_mk2 OSub a b M) as [Ma Mb].
    destruct (IHa ltac:(lia) Ma) as (n & v & En & Pv & Ev & Nv). destruct (IHb ltac:(lia) Mb) as (n' & w & En' & Pw & Ew & Nw).
    assert (eval rho (e_sub a b) = Some (v - w)) as E by (unfold e_sub; rewrite eval_mk2, Ev, Ew; reflexivity).
    pose proof (M rho _ _ (sub_refl _) E) as V.
    destruct (step_sub m Hm x y n n' v w i j Pv Pw XY Nv Nw (S rho v w Ev Ew) K V) as (z & Ez & Pz).
    exists z, (v - w). split; [exact (agg_num2 m OSub a b n n' z eq_refl En En' Ez)|]. split; [exact Pz|]. split; [exact E|apply NZ, V].
  - destruct (moderate_abs_mk2 OMul a b M) as [Ma Mb].
    destruct (IHa ltac:(lia) Ma) as (n & v & En & Pv & Ev & Nv). destruct (IHb ltac:(lia) Mb) as (n' & w & En' & Pw & Ew & Nw).
    assert (eval rho (e_mul a b) = Some (v * w)) as E by (unfold e_mul; rewrite eval_mk2, Ev, Ew; reflexivity).
    pose proof (M rho _ _ (sub_refl _) E) as V.
    destruct (step_mul m Hm x y n n' v w i j Pv Pw XY Nv Nw K V) as (z & Ez & Pz).
    exists z, (v * w). split; [exact (agg_num2 m OMul a b n n' z eq_refl En En' Ez)|]. split; [exact Pz|]. split; [exact E|apply NZ, V].
  - destruct (moderate_abs_mk2 ODiv a b M) as [Ma Mb].
    destruct (IHa ltac:(lia) Ma) as (n & v & En & Pv & Ev & Nv). destruct (IHb ltac:(lia) Mb) as (n' & w & En' & Pw & Ew & Nw).
    assert (eval rho (e_div a b) = Some (v / w)) as E.
    { unfold e_div; rewrite eval_mk2, Ev, Ew. cbn [obind ev2]. destruct (Req_EM_T w 0); [lra|reflexivity]. }
    pose proof (M rho _ _ (sub_refl _) E) as V.
    destruct (step_div m Hm x y n n' v w i j Pv Pw XY Nv Nw K V) as (z & Ez & Pz).
    exists z, (v / w). split; [exact (agg_num2 m ODiv a b n n' z eq_refl En En' Ez)|]. split; [exact Pz|]. split; [exact E|apply NZ, V].
Qed.

(** ** C88 *)
(** the answer is one finite f64, and computed = exact * t with t within k roundings of 1 *)
Theorem c88_factor m e k rho : real_build m -> mixed true e k -> (Z.of_nat k <= 2 ^ 40)%Z -> moderate_abs e ->
  exists n f v t, num_aggregate m e = Ok (e_num n) /\ nval n = Real f /\ f_finite f /\
    eval rho e = Some v /\ fR f = v * t /\ (1 - ulp_half) ^ k <= t <= / (1 - ulp_half) ^ k.
Proof.
  intros Hm H K M. destruct (mixed_agg m true e k rho Hm H K M) as (n & v & En & (_ & _ & B & F & t & G & Et) & Ev & _).
  destruct (B eq_refl) as (f & Ef). rewrite Ef in F, Et. exists n, f, v, t. auto 8.
Qed.
Print Assumptions c88_factor.

(** in plain terms: right sign, relative error at most 2k units of 2^-53 *)
Theorem c88_relative m e k rho : real_build m -> mixed true e k -> (Z.of_nat k <= 2 ^ 40)%Z -> moderate_abs e ->
  exists n f v, num_aggregate m e = Ok (e_num n) /\ sn_to_f64 m n = Ok f /\ eval rho e = Some v /\
    0 < v * fR f /\ Rabs (fR f - v) <= 2 * INR k * ulp_half * Rabs v.
Proof.
  intros Hm H K M. destruct (mixed_agg m true e k rho Hm H K M) as (n & v & En & (_ & _ & B & F & t & G & Et) & Ev & Nv).
  exists n, (val_f64 (nval n)), v. split; [exact En|]. split; [apply sn_to_f64_eq; exact Hm|]. split; [exact Ev|].
  pose proof (good_pos _ _ G) as P. split; [rewrite Et; assert (0 < v * v) by nra; nra|].
  pose proof u_small as U. pose proof (pow_q_bounds k K) as Q.
  assert (1 - INR k * u <= (1 - u) ^ k) as L.
  { clear -U. induction k as [|k IH]; [cbn; lra|]. rewrite S_INR. cbn [pow]. pose proof (pos_INR k). nra. }
  pose proof (pos_INR k) as Pk. destruct G as [G1 G2]. set (q := (1 - u) ^ k) in *. set (d := INR k * u) in *.
  assert (0 <= d) by (unfold d; nra). replace (2 * INR k * u) with (2 * d) by (unfold d; ring).
  assert (/ q <= 1 + 2 * d).
  { apply Rmult_le_reg_r with q; [lra|]. rewrite Rinv_l by lra. nra. }
  rewrite Et. replace (v * t - v) with (v * (t - 1)) by ring. rewrite Rabs_mult, Rmult_comm.
  apply Rmult_le_compat_r; [apply Rabs_pos|]. apply Rabs_le. lra.
Qed.
Print Assumptions c88_relative.

(** a case: (1/3 - (-pi)) * 2.5 *)
Definition ex_third : expr := e_div (e_of_i64 1) (e_of_i64 3).
Definition ex_mixed : expr := e_mul (e_sub ex_third (e_neg (e_num sn_pi))) (e_num (sn_of_f64 f_2_5)).
Example c88_witness : mixed true ex_mixed 5 /\ moderate_abs ex_mixed.
Proof.
  destruct f_2_5_ok as [I2 V2].
  assert (E1 : forall rho, eval rho (e_of_i64 1) = Some 1) by (intros; unfold e_of_i64, e_num; rewrite eval_num, num_R_int; reflexivity).
  assert (E3 : forall rho, eval rho (e_of_i64 3) = Some 3).
  { intros rho. unfold e_of_i64, e_num. rewrite eval_num, num_R_int. reflexivity. }
  assert (E2 : forall rho, eval rho (e_num (sn_of_f64 f_2_5)) = Some (5 / 2)) by (intros; rewrite <- V2; reflexivity).
  assert (Ep : forall rho, eval rho (e_num sn_pi) = Some PI) by reflexivity.
  assert (Et : forall rho, eval rho ex_third = Some (1 / 3)).
  { intros rho. unfold ex_third, e_div. rewrite eval_mk2, E1, E3. cbn [obind ev2]. destruct (Req_EM_T 3 0); [lra|reflexivity]. }
  assert (En : forall rho, eval rho (e_neg (e_num sn_pi)) = Some (- PI)) by (intros; unfold e_neg; rewrite eval_mk1, Ep; reflexivity).
  assert (Es : forall rho, eval rho (e_sub ex_third (e_neg (e_num sn_pi))) = Some (1 / 3 - - PI)) by (intros; unfold e_sub; rewrite eval_mk2, Et, En; reflexivity).
  destruct PI_dec as [A B]. unfold pi_lo, pi_hi, Q2R in A, B. cbn [Qnum Qden] in A, B.
  split.
  - apply (mx_mul true true _ _ 4 0); [|apply mx_lit; [exact I2|exact I|rewrite V2; lra]|reflexivity].
    apply (mx_sub false true _ _ 3 1); [apply mx_exact|apply mx_neg, mx_pi|reflexivity|].
    + split; [|split; [vm_compute; reflexivity|intros rho; exists (1 / 3); split; [apply Et|lra]]].
      assert (forall z, in_i64 z = true -> exact_arith (e_of_i64 z)) as L by (intros z I; exact (ea_num Debug _ _ (An_i64 Debug z I) eq_refl)).
      apply ea_div; apply L; reflexivity.
    + intros rho v w V W. rewrite Et in V. rewrite En in W. injection V as <-. injection W as <-. nra.
  - intros rho s v S E.
    assert (/ 1000 <= Rabs v <= 1000) as K; [|exact (moderate_range _ K)].
    unfold ex_mixed in S. inversion S as [|? ? ? c In1 S1]; subst; clear S.
    { unfold e_mul in E. rewrite eval_mk2, Es, E2 in E. injection E as <-. rewrite Rabs_pos_eq; lra. }
    destruct In1 as [<-|[<-|[]]].
    + inversion S1 as [|? ? ? c In2 S2]; subst; clear S1. { rewrite Es in E. injection E as <-. rewrite Rabs_pos_eq; lra. }
      destruct In2 as [<-|[<-|[]]]; inversion S2 as [|? ? ? c In3 S3]; subst; clear S2.
      * fold ex_third in E. rewrite Et in E. injection E as <-. rewrite Rabs_pos_eq; lra.
      * destruct In3 as [<-|[<-|[]]]; inversion S3 as [|? ? ? c In4 S4]; subst; clear S3; try destruct In4.
        -- rewrite E1 in E. injection E as <-. rewrite Rabs_R1; lra.
        -- rewrite E3 in E. injection E as <-. rewrite Rabs_pos_eq; lra.
      * rewrite En in E. injection E as <-. rewrite Rabs_Ropp, Rabs_pos_eq; lra.
      * destruct In3 as [<-|[]]. inversion S3 as [|? ? ? c In4 S4]; subst; clear S3; try destruct In4.
        rewrite Ep in E. injection E as <-. rewrite Rabs_pos_eq; lra.
    + inversion S1 as [|? ? ? c In2 S2]; subst; clear S1; [|destruct In2]. rewrite E2 in E. injection E as <-. rewrite Rabs_pos_eq; lra.
Qed.

(** Without the sign condition the claim is false: (2^53 + 1) - 2^53 with the integer 2^53 and the
    float 2^53 is computed as 0. *)
Theorem c88_cancellation_refuted m rho : real_build m ->
  let e := e_sub (e_add (e_of_i64 (2 ^ 53)) (e_num (sn_of_f64 f_one))) (e_num (sn_of_f64 f_2p53)) in
  exists n f, num_aggregate m e = Ok (e_num n) /\ sn_to_f64 m n = Ok f /\ fR f = 0 /\ eval rho e = Some 1.
Proof.
  intros Hm e. exists (sn_of_f64 (S754_zero false)), (S754_zero false).
  split; [destruct Hm as [-> | ->]; vm_compute; reflexivity|]. split; [destruct Hm as [-> | ->]; reflexivity|].
  split; [unfold fR; cbn; apply RMicromega.Q2R_0|].
  assert (forall g, f_finite g -> eval rho (e_num (sn_of_f64 g)) = Some (fR g)) as V
      by (intros g Fg; unfold fR; destruct g; try contradiction; reflexivity).
  unfold e, e_sub, e_add. rewrite !eval_mk2, !V by exact I. unfold e_of_i64, e_num. rewrite eval_num, num_R_int. cbn [obind ev2]. f_equal.
  replace (fR f_one) with 1 by (symmetry; exact (proj2 (f_of_Z_exact_small 1 ltac:(lia)))).
  replace (fR f_2p53) with (IZR (2 ^ 53)); [ring|]. unfold fR, f_2p53, f_val, Q2R. cbn. lra.
Qed.
Print Assumptions c88_cancellation_refuted.
