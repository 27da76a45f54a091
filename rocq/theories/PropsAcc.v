(** * PropsAcc: how accurate closed floating-point arithmetic is (C76) *)
From Coq Require Import ZArith QArith List String Bool Lia Lra Psatz.
From Coq Require Import Reals Qreals.
From Coq Require Import Floats.SpecFloat.
From Flocq Require Import Core BinarySingleNaN Relative Plus_error.
From Verif Require Import Base Float Rational SmartNum Ast Compute Spec SpecR SpecF SpecAcc.
From Verif Require Import BaseProofs RationalProofs NumProofs NumProofs2 FloatProofs FloatNum FloatNum2 ConstProofs TreeProofs RealProofs.
Open Scope R_scope.

Notation u := ulp_half.
Lemma u_u53 : ulp_half = u53.
Proof. unfold ulp_half. rewrite u53_val. f_equal. rewrite pow_IZR. f_equal. Qed.
Lemma u_small : 0 < u <= / 9007199254740992.
Proof. rewrite u_u53, u53_val. lra. Qed.

Lemma pow_q_bounds k : (Z.of_nat k <= 2 ^ 40)%Z -> 1 / 2 <= (1 - u) ^ k <= 1.
Proof.
  intros H. pose proof u_small as U. split.
  - assert (1 + INR k * (- u) <= (1 + - u) ^ k) as B.
    { clear H. induction k as [|k IH]; [cbn; lra|]. rewrite S_INR. cbn [pow]. pose proof (pos_INR k). nra. }
    assert (INR k <= 1099511627776).
    { rewrite INR_IZR_INZ. apply IZR_le in H. exact H. }
    unfold Rminus. nra.
  - clear H. induction k as [|k IH]; [cbn; lra|]. cbn [pow].
    assert (0 <= (1 - u) ^ k) by (apply pow_le; lra). nra.
Qed.

Lemma big_pow : 2 ^ 1000 * 4 < overflow64.
Proof.
  unfold overflow64. rewrite pow_IZR. rewrite <- mult_IZR. apply IZR_lt. vm_compute. reflexivity.
Qed.
Lemma small_pow : bpow radix2 (-1022) <= / 2 ^ 1000 / 4.
Proof.
  replace (/ 2 ^ 1000 / 4) with (bpow radix2 (-1002)).
  - apply bpow_le. lia.
  - change (bpow radix2 (-1002)) with (/ IZR (2 ^ 1002)). replace (IZR (2 ^ 1002)) with (2 ^ 1000 * 4).
    + field.
    + rewrite pow_IZR, <- mult_IZR. reflexivity.
Qed.

(** [f] approximates [v] with at most [k] roundings *)
Definition approx_by (k : nat) (v : R) (f : f64) : Prop :=
  (1 - u) ^ k * v <= fR f <= v / (1 - u) ^ k.

Lemma rounded_step r f : rounds_to r f -> / 2 ^ 1000 / 4 <= r -> r <= 2 ^ 1000 * 4 ->
  is_f64 f /\ f_finite f /\ (1 - u) * r <= fR f <= r / (1 - u).
Proof.
  intros R L H. pose proof big_pow. pose proof small_pow. pose proof u_small as U.
  assert (0 < / 2 ^ 1000) by (apply Rinv_0_lt_compat, pow_lt; lra).
  assert (0 < r) as P by lra.
  pose proof (rounds_to_rel r f R) as E. rewrite (Rabs_pos_eq r) in E by lra.
  specialize (E ltac:(lra) ltac:(lra)). rewrite <- u_u53 in E.
  split; [apply R|]. split; [apply R; rewrite Rabs_pos_eq; lra|].
  assert (r * (1 + u) <= r / (1 - u)).
  { unfold Rdiv. apply Rmult_le_compat_l; [lra|]. apply Rmult_le_reg_r with (1 - u); [lra|].
    rewrite Rinv_l by lra. nra. }
  revert E. unfold Rabs. destruct Rcase_abs; lra.
Qed.

(** a closed float expression simplifies to one untagged-zero float number *)
Definition float_num (n : snum) (f : f64) : Prop :=
  nval n = Real f /\ sn_is_zero n = false /\ sn_is_one n = false.
Lemma float_new f : float_num (mkNum (Real f) TNothing) f. Proof. repeat split. Qed.

Lemma fn_add m x y f g : real_build m -> float_num x f -> float_num y g ->
  sn_add m x y = Ok (mkNum (Real (f_add f g)) TNothing).
Proof.
  intros Hm (Vx & Zx & _) (Vy & Zy & _). unfold sn_add. rewrite Zx, Zy, guard_real by assumption.
  rewrite val_add_real by (try assumption; rewrite Vx; reflexivity). rewrite Vx, Vy. reflexivity.
Qed.
Lemma fn_sub m x y f g : real_build m -> float_num x f -> float_num y g ->
  sn_sub m x y = Ok (mkNum (Real (f_sub f g)) TNothing).
Proof.
  intros Hm (Vx & Zx & _) (Vy & Zy & _). unfold sn_sub. rewrite Zx, Zy, guard_real by assumption.
  rewrite val_sub_real by (try assumption; rewrite Vx; reflexivity). rewrite Vx, Vy. reflexivity.
Qed.
Lemma fn_mul m x y f g : real_build m -> float_num x f -> float_num y g ->
  sn_mul m x y = Ok (mkNum (Real (f_mul f g)) TNothing).
Proof.
  intros Hm (Vx & _ & Ox) (Vy & _ & Oy). unfold sn_mul. rewrite Ox, Oy, guard_real by assumption.
  rewrite val_mul_real by (try assumption; rewrite ?Vx, ?Vy; reflexivity). rewrite Vx, Vy. reflexivity.
Qed.
Lemma fn_div m x y f g : real_build m -> float_num x f -> float_num y g ->
  sn_div m x y = Ok (mkNum (Real (f_div f g)) TNothing).
Proof.
  intros Hm (Vx & _ & _) (Vy & _ & _). unfold sn_div. rewrite guard_real by assumption.
  rewrite val_div_real by (try assumption; rewrite ?Vx, ?Vy; reflexivity). rewrite Vx, Vy. reflexivity.
Qed.
Lemma fn_neg m x f : real_build m -> float_num x f -> sn_neg m x = Ok (mkNum (Real (f_neg f)) TNothing).
Proof. intros Hm (Vx & _). unfold sn_neg. rewrite guard_real, Vx by assumption. reflexivity. Qed.

Lemma agg_num2 m t a b x y z : arity t = 2%nat -> num_aggregate m a = Ok (e_num x) -> num_aggregate m b = Ok (e_num y) ->
  match t with OAdd => sn_add m x y | OSub => sn_sub m x y | OMul => sn_mul m x y | ODiv => sn_div m x y | _ => Panic end = Ok z ->
  num_aggregate m (mk2 t a b) = Ok (e_num z).
Proof.
  intros At Ea Eb Ez. rewrite agg_mk2, Ea, Eb by assumption. destruct t; try discriminate; cbn [bind eval_rule];
  unfold add_eval_rule, sub_eval_rule, mul_eval_rule, div_eval_rule, eval2; cbn [pop_unwrap pop bind is_num e_num root andb
    to_smart_num_unwrap to_smart_num]; rewrite Ez; reflexivity.
Qed.

Lemma moderate_mk2 t a b : moderate (mk2 t a b) -> moderate a /\ moderate b.
Proof.
  intros H. split; intros rho s v S E; apply (H rho s v); try exact E; apply sub_child with (2 := S); cbn; auto.
Qed.

Lemma approx_weaken i k v f : (i <= k)%nat -> 0 < v -> (Z.of_nat k <= 2 ^ 40)%Z -> approx_by i v f -> approx_by k v f.
Proof.
  intros L P K [A B]. replace k with (i + (k - i))%nat by lia. unfold approx_by. rewrite pow_add.
  pose proof (pow_q_bounds i ltac:(lia)) as Qi. pose proof (pow_q_bounds (k - i) ltac:(lia)) as Qk.
  set (q := (1 - u) ^ i) in *. set (r := (1 - u) ^ (k - i)) in *. split.
  - assert (0 <= q * v) by nra. nra.
  - apply Rle_trans with (1 := B). unfold Rdiv. apply Rmult_le_compat_l; [lra|]. apply Rinv_le_contravar; nra.
Qed.

Lemma approx_range k v f : (Z.of_nat k <= 2 ^ 40)%Z -> 0 < v -> approx_by k v f -> v / 2 <= fR f <= 2 * v.
Proof.
  intros K P [A B]. pose proof (pow_q_bounds k K) as Q. set (q := (1 - u) ^ k) in *. split; [nra|].
  apply Rle_trans with (1 := B). unfold Rdiv. rewrite Rmult_comm. apply Rmult_le_compat_r; [lra|].
  replace 2 with (/ (1 / 2)) by field. apply Rinv_le_contravar; lra.
Qed.

(** one more rounding on top of an exact combination *)
Lemma approx_round k v w f : (Z.of_nat (S k) <= 2 ^ 40)%Z -> / 2 ^ 1000 <= v <= 2 ^ 1000 ->
  (1 - u) ^ k * v <= w <= v / (1 - u) ^ k -> rounds_to w f -> is_f64 f /\ f_finite f /\ approx_by (S k) v f.
Proof.
  intros K V [A B] R. pose proof (pow_q_bounds k ltac:(lia)) as Q. pose proof u_small as U.
  assert (0 < / 2 ^ 1000) by (apply Rinv_0_lt_compat, pow_lt; lra).
  assert (/ (1 - u) ^ k <= 2).
  { replace 2 with (/ (1 / 2)) by field. apply Rinv_le_contravar; lra. }
  assert (v / (1 - u) ^ k <= 2 * v) by (unfold Rdiv; nra).
  assert (v / 2 <= w) by nra.
  destruct (rounded_step w f R ltac:(lra) ltac:(lra)) as (I & F & C & D).
  split; [exact I|]. split; [exact F|]. unfold approx_by. cbn [pow]. set (q := (1 - u) ^ k) in *. split.
  - apply Rle_trans with (2 := C). nra.
  - apply Rle_trans with (1 := D). replace (v / ((1 - u) * q)) with (v / q / (1 - u)) by (field; lra).
    unfold Rdiv at 1 3. apply Rmult_le_compat_r; [left; apply Rinv_0_lt_compat; lra|exact B].
Qed.

Lemma float_expr_agg m e k rho : real_build m -> float_expr e k -> (Z.of_nat k <= 2 ^ 40)%Z -> moderate e ->
  exists n f v, num_aggregate m e = Ok (e_num n) /\ float_num n f /\ is_f64 f /\ f_finite f /\
    eval rho e = Some v /\ 0 < v /\ approx_by k v f.
Proof.
  intros Hm H. induction H as [f If Ff Pf| | |a b i j Ha IHa Hb IHb|a b i j Ha IHa Hb IHb|a b i j Ha IHa Hb IHb]; intros K M.
  - exists (sn_of_f64 f), f, (fR f). split; [reflexivity|]. split; [repeat split|]. do 2 (split; [assumption|]).
    split. { cbn [eval e_num]. unfold num_R, fR. cbn. destruct f; try contradiction; reflexivity. }
    split; [assumption|]. unfold approx_by. cbn [pow]. lra.
  - pose proof (M rho _ PI (sub_refl _) eq_refl) as V.
    destruct (approx_round 0 PI PI f_PI K V) as (If & Ff & A); [cbn [pow]; lra|exact rounds_PI|].
    exists sn_pi, f_PI, PI. repeat (split; [first [reflexivity|assumption|exact PI_RGT_0|exact (conj eq_refl (conj eq_refl eq_refl))]|]). exact A.
  - pose proof (M rho _ (exp 1) (sub_refl _) eq_refl) as V.
    destruct (approx_round 0 (exp 1) (exp 1) f_E K V) as (If & Ff & A); [cbn [pow]; lra|exact rounds_E|].
    exists sn_e, f_E, (exp 1). repeat (split; [first [reflexivity|assumption|apply exp_pos|exact (conj eq_refl (conj eq_refl eq_refl))]|]). exact A.
  - destruct (moderate_mk2 OAdd a b M) as [Ma Mb].
    destruct (IHa ltac:(lia) Ma) as (n & f & v & En & Nf & If & Ff & Ev & Pv & Av).
    destruct (IHb ltac:(lia) Mb) as (n' & g & w & En' & Ng & Ig & Fg & Ew & Pw & Aw).
    assert (eval rho (e_add a b) = Some (v + w)) as E by (unfold e_add; rewrite eval_mk2, Ev, Ew; reflexivity).
    apply (approx_weaken _ (max i j)) in Av; [|lia|assumption|lia].
    apply (approx_weaken _ (max i j)) in Aw; [|lia|assumption|lia].
    pose proof (f_add_rounds f g If Ig Ff Fg) as R.
    destruct (approx_round (max i j) (v + w) (fR f + fR g) (f_add f g) K (M rho _ _ (sub_refl _) E)) as (I & F & A); [|exact R|].
    { unfold approx_by in Av, Aw. unfold Rdiv in *. rewrite Rmult_plus_distr_l, Rmult_plus_distr_r. lra. }
    exists (mkNum (Real (f_add f g)) TNothing), (f_add f g), (v + w).
    split; [apply (agg_num2 m OAdd a b n n'); try assumption; [reflexivity|apply fn_add; assumption]|].
    split; [apply float_new|]. repeat (split; [first [assumption|lra]|]). exact A.
  - destruct (moderate_mk2 OMul a b M) as [Ma Mb].
    destruct (IHa ltac:(lia) Ma) as (n & f & v & En & Nf & If & Ff & Ev & Pv & Av).
    destruct (IHb ltac:(lia) Mb) as (n' & g & w & En' & Ng & Ig & Fg & Ew & Pw & Aw).
    assert (eval rho (e_mul a b) = Some (v * w)) as E by (unfold e_mul; rewrite eval_mk2, Ev, Ew; reflexivity).
    pose proof (f_mul_rounds f g If Ig Ff Fg) as R.
    assert (0 < v * w) as P by (apply Rmult_lt_0_compat; assumption).
    destruct (approx_round (i + j) (v * w) (fR f * fR g) (f_mul f g) K (M rho _ _ (sub_refl _) E)) as (I & F & A); [|exact R|].
    { pose proof (pow_q_bounds i ltac:(lia)) as Qi. pose proof (pow_q_bounds j ltac:(lia)) as Qj.
      destruct Av as [A1 A2], Aw as [B1 B2]. rewrite pow_add. set (q := (1 - u) ^ i) in *. set (r := (1 - u) ^ j) in *.
      replace (q * r * (v * w)) with ((q * v) * (r * w)) by ring.
      replace (v * w / (q * r)) with ((v / q) * (w / r)) by (field; lra).
      assert (0 <= q * v) by nra. assert (0 <= r * w) by nra.
      split; apply Rmult_le_compat; try assumption; lra. }
    exists (mkNum (Real (f_mul f g)) TNothing), (f_mul f g), (v * w).
    split; [apply (agg_num2 m OMul a b n n'); try assumption; [reflexivity|apply fn_mul; assumption]|].
    split; [apply float_new|]. repeat (split; [first [assumption|lra]|]). exact A.
  - destruct (moderate_mk2 ODiv a b M) as [Ma Mb].
    destruct (IHa ltac:(lia) Ma) as (n & f & v & En & Nf & If & Ff & Ev & Pv & Av).
    destruct (IHb ltac:(lia) Mb) as (n' & g & w & En' & Ng & Ig & Fg & Ew & Pw & Aw).
    assert (eval rho (e_div a b) = Some (v / w)) as E.
    { unfold e_div; rewrite eval_mk2, Ev, Ew. cbn [obind ev2]. destruct (Req_EM_T w 0); [lra|reflexivity]. }
    pose proof (pow_q_bounds i ltac:(lia)) as Qi. pose proof (pow_q_bounds j ltac:(lia)) as Qj.
    destruct Av as [A1 A2], Aw as [B1 B2].
    assert (0 < fR g) as Pg by nra.
    pose proof (f_div_rounds f g If Ig Ff Fg ltac:(lra)) as R.
    assert (0 < v / w) as P by (apply Rdiv_lt_0_compat; assumption).
    destruct (approx_round (i + j) (v / w) (fR f / fR g) (f_div f g) K (M rho _ _ (sub_refl _) E)) as (I & F & A); [|exact R|].
    { rewrite pow_add. set (q := (1 - u) ^ i) in *. set (r := (1 - u) ^ j) in *.
      replace (q * r * (v / w)) with ((q * v) * / (w / r)) by (field; lra).
      replace (v / w / (q * r)) with ((v / q) * / (r * w)) by (field; lra).
      assert (0 < q * v) by nra. assert (0 < r * w) by nra.
      unfold Rdiv at 2 3. split; apply Rmult_le_compat; try lra; try (apply Rinv_le_contravar; lra);
        left; apply Rinv_0_lt_compat; try lra; apply Rdiv_lt_0_compat; lra. }
    exists (mkNum (Real (f_div f g)) TNothing), (f_div f g), (v / w).
    split; [apply (agg_num2 m ODiv a b n n'); try assumption; [reflexivity|apply fn_div; assumption]|].
    split; [apply float_new|]. repeat (split; [first [assumption|lra]|]). exact A.
Qed.

(** ** C76 relative accuracy of closed expressions of positive floats *)
Theorem c76_positive m e k rho : real_build m -> float_expr e k -> (Z.of_nat k <= 2 ^ 40)%Z -> moderate e ->
  exists n f v, num_aggregate m e = Ok (e_num n) /\ sn_to_f64 m n = Ok f /\ f_finite f /\
    eval rho e = Some v /\ (1 - ulp_half) ^ k * v <= fR f <= v / (1 - ulp_half) ^ k.
Proof.
  intros Hm H K M. destruct (float_expr_agg m e k rho Hm H K M) as (n & f & v & En & (Vn & _) & _ & Ff & Ev & _ & A).
  exists n, f, v. split; [exact En|]. split; [unfold sn_to_f64; rewrite Vn; reflexivity|].
  split; [exact Ff|]. split; [exact Ev|exact A].
Qed.
Print Assumptions c76_positive.

(** in plain terms: the relative error is at most 2k units of 2^-53 *)
Theorem c76_relative m e k rho : real_build m -> float_expr e k -> (Z.of_nat k <= 2 ^ 40)%Z -> moderate e ->
  exists n f v, num_aggregate m e = Ok (e_num n) /\ sn_to_f64 m n = Ok f /\
    eval rho e = Some v /\ Rabs (fR f - v) <= 2 * INR k * ulp_half * v.
Proof.
  intros Hm H K M. destruct (float_expr_agg m e k rho Hm H K M) as (n & f & v & En & (Vn & _) & _ & Ff & Ev & P & A & B).
  exists n, f, v. split; [exact En|]. split; [unfold sn_to_f64; rewrite Vn; reflexivity|].
  split; [exact Ev|]. pose proof u_small as U. pose proof (pow_q_bounds k K) as Q.
  assert (1 - INR k * u <= (1 - u) ^ k) as L.
  { clear -U. induction k as [|k IH]; [cbn; lra|]. rewrite S_INR. cbn [pow]. pose proof (pos_INR k). nra. }
  pose proof (pos_INR k) as Pk. set (q := (1 - u) ^ k) in *. set (x := INR k * u) in *.
  assert (0 <= x) by (unfold x; nra). replace (2 * INR k * u) with (2 * x) by (unfold x; ring).
  assert (v / q <= (1 + 2 * x) * v).
  { unfold Rdiv. rewrite Rmult_comm. apply Rmult_le_compat_r; [lra|]. apply Rmult_le_reg_r with q; [lra|].
    rewrite Rinv_l by lra. nra. }
  apply Rabs_le. nra.
Qed.
Print Assumptions c76_relative.

Lemma pow_p_bounds k : (Z.of_nat k <= 2 ^ 40)%Z -> 1 <= (1 + u) ^ k <= 2.
Proof.
  intros K. pose proof u_small as U. split.
  - apply pow_R1_Rle. lra.
  - pose proof (pow_q_bounds k K) as Q. apply Rle_trans with (/ (1 - u) ^ k).
    + rewrite <- pow_inv. apply pow_incr. split; [lra|]. apply Rmult_le_reg_r with (1 - u); [lra|]. rewrite Rinv_l by lra. nra.
    + replace 2 with (/ (1 / 2)) by field. apply Rinv_le_contravar; lra.
Qed.

Lemma fR_format f : is_f64 f -> generic_format radix2 (FLT_exp (-1074) 53) (fR f).
Proof.
  intros I. rewrite <- (toB_SF f I), fR_B2R. exact (generic_format_B2R 53 1024 (toB f I)).
Qed.

Lemma plus_rel f x y : generic_format radix2 (FLT_exp (-1074) 53) x -> generic_format radix2 (FLT_exp (-1074) 53) y ->
  rounds_to (x + y) f -> Rabs (x + y) < overflow64 -> is_f64 f /\ f_finite f /\ Rabs (fR f - (x + y)) <= u * Rabs (x + y).
Proof.
  intros Gx Gy [I [R _]] L. destruct (R L) as [F N]. split; [exact I|]. split; [exact F|].
  destruct (format_f64 (round radix2 (SpecFloat.fexp 53 1024) ZnearestE (x + y))) as [g [Ig [Fg Eg]]].
  - apply generic_format_round; auto with typeclass_instances. apply FLT_exp_valid. reflexivity.
  - now apply rnd_lt.
  - apply Rle_trans with (Rabs (fR g - (x + y))); [apply (N g Ig Fg)|]. rewrite Eg.
    destruct (@FLT_plus_error_N_ex radix2 (-1074) 53 eq_refl (fun z => negb (Z.even z)) x y Gx Gy) as (eps & B & E).
    rewrite <- Eg. replace (fR g) with ((x + y) * (1 + eps)) by (rewrite Eg; symmetry; exact E).
    replace ((x + y) * (1 + eps) - (x + y)) with (eps * (x + y)) by ring. rewrite Rabs_mult.
    apply Rmult_le_compat_r; [apply Rabs_pos|]. apply Rle_trans with (1 := B).
    assert (u_ro radix2 53 = u) as ->.
    { rewrite u_u53, u53_val. unfold u_ro. change (/ 2 * / 4503599627370496 = / 9007199254740992). field. }
    pose proof u_small as U. unfold Rdiv. rewrite <- (Rmult_1_r u) at 3. apply Rmult_le_compat_l; [lra|].
    rewrite <- Rinv_1. apply Rinv_le_contravar; lra.
Qed.

Lemma sum_step m k f g v w A B h : (Z.of_nat (S k) <= 2 ^ 40)%Z -> A + B <= 2 ^ 1000 ->
  is_f64 f -> is_f64 g -> Rabs v <= A -> Rabs w <= B ->
  Rabs (fR f - v) <= ((1 + u) ^ k - 1) * A -> Rabs (fR g - w) <= ((1 + u) ^ k - 1) * B ->
  m = 1 \/ m = -1 -> rounds_to (fR f + m * fR g) h ->
  is_f64 h /\ f_finite h /\ Rabs (v + m * w) <= A + B /\
  Rabs (fR h - (v + m * w)) <= ((1 + u) ^ S k - 1) * (A + B).
Proof.
  intros K L If Ig Bv Bw Ef Eg Hm R. pose proof u_small as U. pose proof big_pow as BP.
  pose proof (pow_p_bounds k ltac:(lia)) as Q. cbn [pow]. set (q := (1 + u) ^ k) in *.
  pose proof (Rabs_pos v). pose proof (Rabs_pos w).
  assert (forall z, Rabs (m * z) = Rabs z) as Am.
  { intros z. destruct Hm as [-> | ->]; [rewrite Rmult_1_l; reflexivity|].
    replace (-1 * z) with (- z) by ring. apply Rabs_Ropp. }
  assert (Rabs (v + m * w) <= A + B) as S.
  { apply Rle_trans with (1 := Rabs_triang _ _). rewrite Am. lra. }
  assert (Rabs (fR f + m * fR g - (v + m * w)) <= (q - 1) * (A + B)) as D.
  { replace (fR f + m * fR g - (v + m * w)) with ((fR f - v) + m * (fR g - w)) by ring.
    apply Rle_trans with (1 := Rabs_triang _ _). rewrite Am. lra. }
  assert (Rabs (fR f + m * fR g) <= q * (A + B)) as T.
  { replace (fR f + m * fR g) with ((fR f + m * fR g - (v + m * w)) + (v + m * w)) by ring.
    apply Rle_trans with (1 := Rabs_triang _ _). lra. }
  assert (generic_format radix2 (FLT_exp (-1074) 53) (m * fR g)) as Gg.
  { destruct Hm as [-> | ->]; [rewrite Rmult_1_l; apply fR_format; exact Ig|].
    replace (-1 * fR g) with (- fR g) by ring. apply generic_format_opp, fR_format, Ig. }
  destruct (plus_rel h (fR f) (m * fR g) (fR_format f If) Gg R ltac:(nra)) as (Ih & Fh & E).
  split; [exact Ih|]. split; [exact Fh|]. split; [exact S|].
  replace (fR h - (v + m * w)) with ((fR h - (fR f + m * fR g)) + (fR f + m * fR g - (v + m * w))) by ring.
  apply Rle_trans with (1 := Rabs_triang _ _). nra.
Qed.

Lemma sum_weaken i k f v A : (i <= k)%nat -> 0 <= A -> Rabs (fR f - v) <= ((1 + u) ^ i - 1) * A ->
  Rabs (fR f - v) <= ((1 + u) ^ k - 1) * A.
Proof.
  intros L P H. apply Rle_trans with (1 := H). apply Rmult_le_compat_r; [exact P|].
  pose proof u_small as U. assert ((1 + u) ^ i <= (1 + u) ^ k) by (apply Rle_pow; [lra|exact L]). lra.
Qed.

Lemma sum_expr_agg m e k A rho : real_build m -> sum_expr e k A -> (Z.of_nat k <= 2 ^ 40)%Z -> A <= 2 ^ 1000 ->
  exists n f v, num_aggregate m e = Ok (e_num n) /\ float_num n f /\ is_f64 f /\ f_finite f /\
    eval rho e = Some v /\ Rabs v <= A /\ Rabs (fR f - v) <= ((1 + u) ^ k - 1) * A.
Proof.
  intros Hm H. induction H as [f If Ff|a i A Ha IHa|a b i j A B Ha IHa Hb IHb|a b i j A B Ha IHa Hb IHb]; intros K L.
  - exists (sn_of_f64 f), f, (fR f). split; [reflexivity|]. split; [repeat split|]. do 2 (split; [assumption|]).
    split. { cbn [eval e_num]. unfold num_R, fR. cbn. destruct f; try contradiction; reflexivity. }
    split; [lra|]. cbn [pow]. rewrite Rminus_eq_0, Rabs_R0. lra.
  - destruct (IHa K L) as (n & f & v & En & Nf & If & Ff & Ev & Bv & Av).
    exists (mkNum (Real (f_neg f)) TNothing), (f_neg f), (- v).
    split. { unfold e_neg. rewrite agg_mk1, En by reflexivity. cbn [bind eval_rule]. unfold neg_eval_rule.
             cbn [pop_unwrap pop bind is_num e_num root to_smart_num_unwrap to_smart_num]. rewrite (fn_neg m n f Hm Nf). reflexivity. }
    split; [apply float_new|]. split; [apply f_neg_is, If|]. split; [apply f_neg_finite, Ff|].
    split. { unfold e_neg. rewrite eval_mk1, Ev. reflexivity. }
    split; [rewrite Rabs_Ropp; exact Bv|]. rewrite fR_neg. replace (- fR f - - v) with (- (fR f - v)) by ring.
    rewrite Rabs_Ropp. exact Av.
  - assert (0 <= A) as PA by (clear -Ha; induction Ha; try assumption; try apply Rabs_pos; lra).
    assert (0 <= B) as PB by (clear -Hb; induction Hb; try assumption; try apply Rabs_pos; lra).
    destruct (IHa ltac:(lia) ltac:(lra)) as (n & f & v & En & Nf & If & Ff & Ev & Bv & Av).
    destruct (IHb ltac:(lia) ltac:(lra)) as (n' & g & w & En' & Ng & Ig & Fg & Ew & Bw & Aw).
    apply (sum_weaken _ (max i j)) in Av; [|lia|exact PA]. apply (sum_weaken _ (max i j)) in Aw; [|lia|exact PB].
    pose proof (f_add_rounds f g If Ig Ff Fg) as R. replace (fR f + fR g) with (fR f + 1 * fR g) in R by ring.
    destruct (sum_step 1 _ f g v w A B _ K L If Ig Bv Bw Av Aw (or_introl eq_refl) R) as (Ih & Fh & S & D).
    rewrite Rmult_1_l in *. exists (mkNum (Real (f_add f g)) TNothing), (f_add f g), (v + w).
    split; [apply (agg_num2 m OAdd a b n n'); try assumption; [reflexivity|apply fn_add; assumption]|].
    split; [apply float_new|]. split; [exact Ih|]. split; [exact Fh|].
    split; [unfold e_add; rewrite eval_mk2, Ev, Ew; reflexivity|]. split; [exact S|exact D].
  - assert (0 <= A) as PA by (clear -Ha; induction Ha; try assumption; try apply Rabs_pos; lra).
    assert (0 <= B) as PB by (clear -Hb; induction Hb; try assumption; try apply Rabs_pos; lra).
    destruct (IHa ltac:(lia) ltac:(lra)) as (n & f & v & En & Nf & If & Ff & Ev & Bv & Av).
    destruct (IHb ltac:(lia) ltac:(lra)) as (n' & g & w & En' & Ng & Ig & Fg & Ew & Bw & Aw).
    apply (sum_weaken _ (max i j)) in Av; [|lia|exact PA]. apply (sum_weaken _ (max i j)) in Aw; [|lia|exact PB].
    pose proof (f_sub_rounds f g If Ig Ff Fg) as R. replace (fR f - fR g) with (fR f + -1 * fR g) in R by ring.
    destruct (sum_step (-1) _ f g v w A B _ K L If Ig Bv Bw Av Aw (or_intror eq_refl) R) as (Ih & Fh & S & D).
    replace (v + -1 * w) with (v - w) in * by ring. exists (mkNum (Real (f_sub f g)) TNothing), (f_sub f g), (v - w).
    split; [apply (agg_num2 m OSub a b n n'); try assumption; [reflexivity|apply fn_sub; assumption]|].
    split; [apply float_new|]. split; [exact Ih|]. split; [exact Fh|].
    split; [unfold e_sub; rewrite eval_mk2, Ev, Ew; reflexivity|]. split; [exact S|exact D].
Qed.

(** sums and differences of floats of any sign: the error is small against the sum of the
    absolute values of the literals (not against the result, which may cancel) *)
Theorem c76_sums m e k A rho : real_build m -> sum_expr e k A -> (Z.of_nat k <= 2 ^ 40)%Z -> A <= 2 ^ 1000 ->
  exists n f v, num_aggregate m e = Ok (e_num n) /\ sn_to_f64 m n = Ok f /\ f_finite f /\
    eval rho e = Some v /\ Rabs (fR f - v) <= ((1 + ulp_half) ^ k - 1) * A.
Proof.
  intros Hm H K L. destruct (sum_expr_agg m e k A rho Hm H K L) as (n & f & v & En & (Vn & _) & _ & Ff & Ev & _ & D).
  exists n, f, v. split; [exact En|]. split; [unfold sn_to_f64; rewrite Vn; reflexivity|].
  split; [exact Ff|]. split; [exact Ev|exact D].
Qed.
Print Assumptions c76_sums.

(** the hypotheses are met by (pi + 0.5) * 2.5 *)
Definition f_half : f64 := S754_finite false 4503599627370496 (-53).
Definition f_2_5 : f64 := S754_finite false 5629499534213120 (-51).
Lemma f_half_ok : is_f64 f_half /\ fR f_half = / 2.
Proof. split; [left; cbv; intuition discriminate|]. unfold fR, f_half, f_val, Q2R. cbn [Qnum Qden].
  change (2 ^ 53)%positive with 9007199254740992%positive. lra. Qed.
Lemma f_2_5_ok : is_f64 f_2_5 /\ fR f_2_5 = 5 / 2.
Proof. split; [left; cbv; intuition discriminate|]. unfold fR, f_2_5, f_val, Q2R. cbn [Qnum Qden].
  change (2 ^ 51)%positive with 2251799813685248%positive. lra. Qed.

Definition ex_acc : expr := e_mul (e_add (e_num sn_pi) (e_num (sn_of_f64 f_half))) (e_num (sn_of_f64 f_2_5)).

Lemma moderate_range v : / 1000 <= v <= 1000 -> / 2 ^ 1000 <= v <= 2 ^ 1000.
Proof.
  intros H. assert (1000 <= 2 ^ 1000).
  { rewrite pow_IZR. apply IZR_le. vm_compute. discriminate. }
  assert (/ 2 ^ 1000 <= / 1000) by (apply Rinv_le_contravar; lra). lra.
Qed.

Example c76_example : float_expr ex_acc 3 /\ moderate ex_acc.
Proof.
  destruct f_half_ok as [Ih Vh], f_2_5_ok as [I2 V2]. split.
  - apply (fx_mul _ _ 2 0); [apply (fx_add _ _ 1 0); [apply fx_pi|apply fx_lit; [exact Ih|exact I|rewrite Vh; lra]]|].
    apply fx_lit; [exact I2|exact I|rewrite V2; lra].
  - intros rho s v S E. apply moderate_range. destruct PI_dec as [A B]. unfold pi_lo, pi_hi, Q2R in A, B. cbn [Qnum Qden] in A, B.
    assert (eval rho (e_num (sn_of_f64 f_half)) = Some (/ 2)) as Eh by (rewrite <- Vh; reflexivity).
    assert (eval rho (e_num (sn_of_f64 f_2_5)) = Some (5 / 2)) as E2 by (rewrite <- V2; reflexivity).
    assert (eval rho (e_num sn_pi) = Some PI) as Ep by reflexivity.
    assert (eval rho (e_add (e_num sn_pi) (e_num (sn_of_f64 f_half))) = Some (PI + / 2)) as Es
      by (unfold e_add; rewrite eval_mk2, Ep, Eh; reflexivity).
    unfold ex_acc in S. inversion S as [|? ? ? c In1 S1]; subst; clear S.
    { unfold e_mul in E. rewrite eval_mk2, Es, E2 in E. injection E as <-. lra. }
    destruct In1 as [<-|[<-|[]]].
    + inversion S1 as [|? ? ? c In2 S2]; subst; clear S1. { rewrite Es in E. injection E as <-. lra. }
      destruct In2 as [<-|[<-|[]]]; inversion S2 as [|? ? ? c In3 S3]; subst; clear S2; try destruct In3.
      * rewrite Ep in E. injection E as <-. lra.
      * rewrite Eh in E. injection E as <-. lra.
    + inversion S1 as [|? ? ? c In2 S2]; subst; clear S1; [|destruct In2]. rewrite E2 in E. injection E as <-. lra.
Qed.

(** without the bound on the parts the claim is false: 2^-600 * 2^-600 underflows to 0 *)
Definition f_tiny : f64 := S754_finite false 4503599627370496 (-652).
Theorem c76_underflow_refuted m : real_build m -> exists n f, float_expr (e_mul (e_num (sn_of_f64 f_tiny)) (e_num (sn_of_f64 f_tiny))) 1 /\
  num_aggregate m (e_mul (e_num (sn_of_f64 f_tiny)) (e_num (sn_of_f64 f_tiny))) = Ok (e_num n) /\
  sn_to_f64 m n = Ok f /\ fR f = 0.
Proof.
  intros Hm. assert (is_f64 f_tiny) by (left; cbv; intuition discriminate).
  assert (0 < fR f_tiny).
  { unfold fR, f_tiny, f_val. rewrite <- RMicromega.Q2R_0. apply Qlt_Rlt. reflexivity. }
  exists (sn_of_f64 (S754_zero false)), (S754_zero false).
  split; [apply (fx_mul _ _ 0 0); apply fx_lit; try assumption; exact I|].
  split; [destruct Hm as [-> | ->]; vm_compute; reflexivity|]. split; [destruct Hm as [-> | ->]; reflexivity|].
  unfold fR. cbn. apply RMicromega.Q2R_0.
Qed.
Print Assumptions c76_underflow_refuted.

(** and a difference may lose everything: (2^53 + 1) - 2^53 is computed as 0 *)
Definition f_2p53 : f64 := S754_finite false 4503599627370496 1.
Theorem c76_cancellation_refuted m rho : real_build m ->
  let e := e_sub (e_add (e_num (sn_of_f64 f_2p53)) (e_num (sn_of_f64 f_one))) (e_num (sn_of_f64 f_2p53)) in
  exists n f, sum_expr e 2 (Rabs (fR f_2p53) + Rabs (fR f_one) + Rabs (fR f_2p53)) /\ eval rho e = Some 1 /\
  num_aggregate m e = Ok (e_num n) /\ sn_to_f64 m n = Ok f /\ fR f = 0.
Proof.
  intros Hm e. assert (is_f64 f_2p53) by (left; cbv; intuition discriminate).
  assert (is_f64 f_one) by (left; cbv; intuition discriminate).
  exists (sn_of_f64 (S754_zero false)), (S754_zero false).
  split. { apply (sx_sub _ _ 1 0); [apply (sx_add _ _ 0 0); apply sx_lit; try assumption; exact I|apply sx_lit; [assumption|exact I]]. }
  split.
  { assert (forall g, f_finite g -> eval rho (e_num (sn_of_f64 g)) = Some (fR g)) as V
      by (intros g Fg; unfold fR; destruct g; try contradiction; reflexivity).
    unfold e, e_sub, e_add. rewrite !eval_mk2, !V by exact I. cbn [obind ev2]. f_equal. replace (fR f_one) with 1; [ring|].
    symmetry. exact (proj2 (f_of_Z_exact_small 1 ltac:(lia))). }
  split; [destruct Hm as [-> | ->]; vm_compute; reflexivity|]. split; [destruct Hm as [-> | ->]; reflexivity|].
  unfold fR. cbn. apply RMicromega.Q2R_0.
Qed.
Print Assumptions c76_cancellation_refuted.
