(** * FloatNum2: comparison, conversion error, is_close, near *)
From Coq Require Import ZArith QArith List Bool Lia Lra.
From Coq Require Import Reals Qreals.
From Coq Require Import Floats.SpecFloat.
From Flocq Require Import Core.Core.
From Flocq Require Import Relative.
From Flocq Require Import IEEE754.BinarySingleNaN.
From Verif Require Import Base Float Rational SmartNum Ast Spec SpecF.
From Verif Require Import BaseProofs RationalProofs NumProofs NumProofs2 FloatProofs FloatNum.
Open Scope R_scope.

(** ** the four operators on numbers *)
Section Ops.
Variable m : mode.
Hypothesis Hm : real_build m.
Variables x y : snum.
Hypothesis Ox : num_ok x.
Hypothesis Oy : num_ok y.
Hypothesis Vx : val_valid (nval x).
Hypothesis Vy : val_valid (nval y).
Hypothesis B : f64_backed x \/ f64_backed y.
Notation a := (val_f64 (nval x)).
Notation b := (val_f64 (nval y)).
Hypothesis Fa : f_finite a.
Hypothesis Fb : f_finite b.

Let Ia : is_f64 a := val_f64_is _ Vx.
Let Ib : is_f64 b := val_f64_is _ Vy.

Lemma sn_add_rounds : exists z c, sn_add m x y = Ok z /\ sn_to_f64 m z = Ok c /\
  rounds_to (fR a + fR b) c.
Proof.
  unfold sn_add. destruct (sn_is_zero x) eqn:Zx.
  { destruct (val_zero_f64 _ (proj1 Ox) (ok_zero x Ox Zx)) as [_ E].
    exists y, b. split; [reflexivity|]. split; [now apply sn_to_f64_eq|].
    rewrite E, Rplus_0_l. now apply rounds_to_self. }
  destruct (sn_is_zero y) eqn:Zy.
  { destruct (val_zero_f64 _ (proj1 Oy) (ok_zero y Oy Zy)) as [_ E].
    exists x, a. split; [reflexivity|]. split; [now apply sn_to_f64_eq|].
    rewrite E, Rplus_0_r. now apply rounds_to_self. }
  rewrite guard_real, val_add_real by auto using backed_real. cbn [bind].
  eexists. exists (f_add a b). split; [reflexivity|]. split.
  - rewrite wrap_real. reflexivity.
  - now apply f_add_rounds.
Qed.

Lemma sn_sub_rounds : exists z c, sn_sub m x y = Ok z /\ sn_to_f64 m z = Ok c /\
  rounds_to (fR a - fR b) c.
Proof.
  unfold sn_sub. destruct (sn_is_zero x) eqn:Zx.
  { pose proof (ok_zero x Ox Zx) as Ez.
    destruct (val_zero_f64 _ (proj1 Ox) Ez) as [_ E].
    assert (exists f, nval y = Real f) as [f Ef].
    { destruct B as [[f Ef]|Hy]; [|exact Hy]. rewrite Ef in Ez. discriminate. }
    unfold sn_neg. rewrite guard_real by assumption. rewrite Ef. cbn [val_neg bind].
    eexists. exists (f_neg f). split; [reflexivity|]. rewrite wrap_real. split; [reflexivity|].
    rewrite E. cbn [val_f64].
    apply (rounds_to_ext (fR (f_neg f))); [rewrite fR_neg; ring|].
    rewrite Ef in Fb, Ib. apply rounds_to_self; [now apply f_neg_is|now apply f_neg_finite]. }
  destruct (sn_is_zero y) eqn:Zy.
  { destruct (val_zero_f64 _ (proj1 Oy) (ok_zero y Oy Zy)) as [_ E].
    exists x, a. split; [reflexivity|]. split; [now apply sn_to_f64_eq|].
    rewrite E, Rminus_0_r. now apply rounds_to_self. }
  rewrite guard_real, val_sub_real by auto using backed_real. cbn [bind].
  eexists. exists (f_sub a b). split; [reflexivity|]. split.
  - rewrite wrap_real. reflexivity.
  - now apply f_sub_rounds.
Qed.

Lemma sn_zero_rounds r : r = 0 -> exists c, sn_to_f64 m (wrap_val (Integer 0)) = Ok c /\ rounds_to r c.
Proof.
  intros ->. exists (f_of_Z 0). split; [now rewrite sn_to_f64_eq|].
  destruct (f_of_Z_exact_small 0) as [F E]; [lia|].
  apply (rounds_to_ext (fR (f_of_Z 0))); [exact E|]. apply rounds_to_self; [apply f_of_Z_is|exact F].
Qed.

Lemma sn_mul_rounds : exists z c, sn_mul m x y = Ok z /\ sn_to_f64 m z = Ok c /\
  rounds_to (fR a * fR b) c.
Proof.
  unfold sn_mul. destruct (sn_is_one x) eqn:Zx.
  { destruct (val_one_f64 _ (proj1 Ox) (ok_one x Ox Zx)) as [_ E].
    exists y, b. split; [reflexivity|]. split; [now apply sn_to_f64_eq|].
    rewrite E, Rmult_1_l. now apply rounds_to_self. }
  destruct (sn_is_one y) eqn:Zy.
  { destruct (val_one_f64 _ (proj1 Oy) (ok_one y Oy Zy)) as [_ E].
    exists x, a. split; [reflexivity|]. split; [now apply sn_to_f64_eq|].
    rewrite E, Rmult_1_r. now apply rounds_to_self. }
  rewrite guard_real by assumption.
  destruct (val_is_zero (nval x) || val_is_zero (nval y)) eqn:Z0.
  { unfold val_mul. rewrite Z0. cbn [bind].
    destruct (sn_zero_rounds (fR a * fR b)) as [c [E1 E2]].
    - apply orb_prop in Z0 as [Z0|Z0].
      + destruct (val_zero_f64 _ (proj1 Ox) Z0) as [_ E]. rewrite E. ring.
      + destruct (val_zero_f64 _ (proj1 Oy) Z0) as [_ E]. rewrite E. ring.
    - exists (wrap_val (Integer 0)), c. auto. }
  apply orb_false_iff in Z0 as [Z1 Z2].
  rewrite val_mul_real by auto using backed_real. cbn [bind].
  eexists. exists (f_mul a b). split; [reflexivity|]. split.
  - rewrite wrap_real. reflexivity.
  - now apply f_mul_rounds.
Qed.

Lemma sn_div_rounds : fR b <> 0 -> exists z c, sn_div m x y = Ok z /\ sn_to_f64 m z = Ok c /\
  rounds_to (fR a / fR b) c.
Proof.
  intros Nb. unfold sn_div. rewrite guard_real by assumption.
  destruct (val_is_zero (nval x)) eqn:Z0.
  { unfold val_div. rewrite Z0. cbn [bind].
    destruct (sn_zero_rounds (fR a / fR b)) as [c [E1 E2]].
    - destruct (val_zero_f64 _ (proj1 Ox) Z0) as [_ E]. rewrite E. unfold Rdiv. ring.
    - exists (wrap_val (Integer 0)), c. auto. }
  rewrite val_div_real by auto using backed_real. cbn [bind].
  eexists. exists (f_div a b). split; [reflexivity|]. split.
  - rewrite wrap_real. reflexivity.
  - now apply f_div_rounds.
Qed.
End Ops.

(** ** comparison *)
Lemma f_ltb_correct a b : is_f64 a -> is_f64 b -> f_finite a -> f_finite b ->
  f_ltb a b = true <-> fR a < fR b.
Proof.
  intros Ha Hb Fa Fb. rewrite <- (toB_SF a Ha), <- (toB_SF b Hb) in *.
  set (x := toB a Ha) in *. set (y := toB b Hb) in *. clearbody x y.
  apply finite_B in Fa, Fb. rewrite !fR_B2R.
  assert (E : SFcompare (B2SF x) (B2SF y) = Bcompare x y) by reflexivity.
  unfold f_ltb, SFltb. rewrite E, Bcompare_correct by assumption.
  destruct (Rcompare_spec (B2R x) (B2R y)); split; try discriminate; try reflexivity; lra.
Qed.

Lemma f_abs_is f : is_f64 f -> is_f64 (f_abs f).
Proof. destruct f; exact (fun H => H). Qed.
Lemma f_abs_finite f : f_finite f -> f_finite (f_abs f).
Proof. destruct f; exact (fun H => H). Qed.
Lemma fR_abs f : fR (f_abs f) = Rabs (fR f).
Proof.
  rewrite !fR_SF. destruct f as [s|s| |s p k]; simpl; try (now rewrite Rabs_R0).
  rewrite <- F2R_Zabs. f_equal. f_equal. destruct s; reflexivity.
Qed.

Lemma f_ltb_inf_l s e : f_ltb (f_abs (S754_infinity s)) e = false.
Proof. destruct e as [t|t| |t p k]; try destruct t; reflexivity. Qed.
Lemma f_ltb_nan_l e : f_ltb (f_abs S754_nan) e = false.
Proof. reflexivity. Qed.

(** no false positives: if the rounded difference is below eps, so is the exact one *)
Lemma close_sound r d eps : rounds_to r d -> is_f64 eps -> f_finite eps ->
  f_ltb (f_abs d) eps = true -> Rabs r < fR eps.
Proof.
  intros R Ie Fe H. pose proof R as [Id [R2 [R3 R4]]].
  destruct (Rlt_le_dec (Rabs r) overflow64) as [L|L].
  2: { exfalso. destruct (Rle_lt_dec 0 r) as [P|P].
       - rewrite (R3 ltac:(rewrite Rabs_pos_eq in L; lra)) in H. now rewrite f_ltb_inf_l in H.
       - rewrite (R4 ltac:(rewrite Rabs_left in L; lra)) in H. now rewrite f_ltb_inf_l in H. }
  destruct (R2 L) as [Fd N].
  apply f_ltb_correct in H; auto using f_abs_is, f_abs_finite. rewrite fR_abs in H.
  destruct (Rlt_le_dec (Rabs r) (fR eps)) as [K|K]; [assumption|exfalso].
  destruct (N eps Ie Fe) as [N1 _].
  destruct (N (f_neg eps) (f_neg_is _ Ie) (f_neg_finite _ Fe)) as [N2 _]. rewrite fR_neg in N2.
  revert N1 N2 K H. unfold Rabs. repeat destruct Rcase_abs; intros; lra.
Qed.

(** false negatives only within rounding: below a float that is below eps, it answers yes *)
Lemma close_complete r d e eps : rounds_to r d -> is_f64 eps -> f_finite eps ->
  is_f64 e -> f_finite e -> fR e < fR eps -> Rabs r <= fR e -> f_ltb (f_abs d) eps = true.
Proof.
  intros R Ie Fe Ig Fg H1 H2. pose proof R as [Id [R2 _]].
  assert (L : Rabs r < overflow64).
  { apply Rle_lt_trans with (1 := H2). rewrite overflow64_eq.
    rewrite <- (toB_SF e Ig), fR_B2R.
    apply Rle_lt_trans with (1 := Rle_abs _).
    pose proof (abs_B2R_le_emax_minus_prec 53 1024 prec_pos (toB e Ig)).
    change (1024 - 53)%Z with 971%Z in *. pose proof b971. pose proof (bpow_gt_0 radix2 970). lra. }
  destruct (R2 L) as [Fd _].
  apply f_ltb_correct; auto using f_abs_is, f_abs_finite. rewrite fR_abs.
  apply Rle_lt_trans with (2 := H1).
  assert (Hr : - fR e <= r <= fR e).
  { revert H2. unfold Rabs. destruct Rcase_abs; lra. }
  pose proof (rounds_to_between r d (f_neg e) e R L (f_neg_is _ Ig) (f_neg_finite _ Fg) Ig Fg) as K.
  rewrite fR_neg in K. specialize (K Hr). unfold Rabs. destruct Rcase_abs; lra.
Qed.

(** ** is_close *)
Lemma abs_normalize z k : f_abs (SpecFloat.binary_normalize prec64 emax64 z k false) =
  f_abs (SpecFloat.binary_normalize prec64 emax64 (- z) k false).
Proof.
  assert (A : forall mx ex lx, f_abs (SpecFloat.binary_round_aux prec64 emax64 true mx ex lx) =
                               f_abs (SpecFloat.binary_round_aux prec64 emax64 false mx ex lx)).
  { intros. unfold SpecFloat.binary_round_aux.
    destruct (shr_fexp prec64 emax64 mx ex lx) as [mrs e'].
    destruct (shr_fexp prec64 emax64 (round_nearest_even (shr_m mrs) (loc_of_shr_record mrs)) e' loc_Exact) as [mrs2 e2].
    destruct (shr_m mrs2); try reflexivity. destruct (Z.leb e2 (emax64 - prec64)); reflexivity. }
  destruct z as [|p|p]; simpl; [reflexivity| |];
    unfold SpecFloat.binary_round;
    destruct (shl_align p k (fexp prec64 emax64 (Z.pos (digits2_pos p) + k))) as [mz ez];
    [symmetry|]; apply A.
Qed.

Lemma abs_sub_sym a b : f_abs (f_sub a b) = f_abs (f_sub b a).
Proof.
  destruct a as [s|s| |s p k], b as [t|t| |t q l]; try reflexivity; try (destruct s, t; reflexivity).
  unfold f_sub, SFsub. rewrite abs_normalize. f_equal. rewrite (Z.min_comm l k). f_equal.
  unfold Zminus. ring.
Qed.

Lemma sn_is_close_eq m x y eps : real_build m ->
  sn_is_close m x y eps = Ok (f_ltb (f_abs (f_sub (val_f64 (nval x)) (val_f64 (nval y)))) eps).
Proof.
  intros H. unfold sn_is_close, val_is_close. rewrite !val_to_f64_eq by assumption. cbn [bind].
  unfold m_sub. rewrite trap_real by assumption. reflexivity.
Qed.

Lemma sub_self f : f_finite f -> is_f64 f -> f_finite (f_sub f f) /\ fR (f_sub f f) = 0.
Proof.
  intros F H. pose proof (f_sub_rounds f f H H F F) as R.
  rewrite Rminus_eq_0 in R.
  destruct (f_of_Z_exact_small 0) as [F0 E0]; [lia|].
  apply (rounds_to_exact _ _ _ R (f_of_Z_is 0) F0 E0).
Qed.

(** ** conversion error *)
Lemma format_f64 v : generic_format radix2 (SpecFloat.fexp 53 1024) v -> Rabs v < bpow radix2 1024 ->
  exists g, is_f64 g /\ f_finite g /\ fR g = v.
Proof.
  intros G L. pose proof G as G0. unfold generic_format in G.
  set (mz := Ztrunc (scaled_mantissa radix2 (SpecFloat.fexp 53 1024) v)) in *.
  set (e := cexp radix2 (SpecFloat.fexp 53 1024) v) in *. clearbody mz e.
  pose proof (binary_normalize_correct 53 1024 prec_pos prec_max mode_NE mz e false) as H.
  cbv zeta in H. rewrite <- G in H. apply rlt_cases in H as [H _].
  rewrite round_generic in H; [|auto with typeclass_instances|exact G0].
  destruct (H L) as [A [C _]].
  exists (B2SF (binary_normalize 53 1024 prec_pos prec_max mode_NE mz e false)).
  split; [apply is_f64_B2SF|]. split; [now apply finite_B|]. now rewrite fR_B2R.
Qed.

Definition u53 : R := bpow radix2 (-53).

Lemma rounds_to_rel r f : rounds_to r f -> Rabs r < overflow64 ->
  bpow radix2 (-1022) <= Rabs r -> Rabs (fR f - r) <= u53 * Rabs r.
Proof.
  intros [_ [R _]] L S. destruct (R L) as [_ N].
  destruct (format_f64 (round radix2 (SpecFloat.fexp 53 1024) ZnearestE r)) as [g [Ig [Fg Eg]]].
  - apply generic_format_round; auto with typeclass_instances. apply FLT_exp_valid. reflexivity.
  - now apply rnd_lt.
  - apply Rle_trans with (Rabs (fR g - r)); [apply (N g Ig Fg)|]. rewrite Eg.
    pose proof (relative_error_N_FLT radix2 (-1074) 53 eq_refl (fun x => negb (Z.even x)) r S) as E.
    replace u53 with (/2 * bpow radix2 (-53 + 1)); [exact E|].
    unfold u53. rewrite bpow_plus. change (bpow radix2 1) with 2. field.
Qed.

Lemma u53_val : u53 = / 9007199254740992.
Proof. reflexivity. Qed.

Lemma small_bpow r : 1 / IZR two64 / 4 <= Rabs r -> bpow radix2 (-1022) <= Rabs r.
Proof.
  intros H. apply Rle_trans with (2 := H).
  replace (1 / IZR two64 / 4) with (bpow radix2 (-66)).
  - apply bpow_le. lia.
  - change (bpow radix2 (-66)) with (/ IZR 73786976294838206464).
    change two64 with 18446744073709551616%Z. field.
Qed.

Lemma int_rel z : (- two64 < z < two64)%Z ->
  f_finite (f_of_Z z) /\ Rabs (fR (f_of_Z z) - IZR z) <= u53 * Rabs (IZR z).
Proof.
  intros Hz. assert (A : Rabs (IZR z) < IZR two64).
  { rewrite <- abs_IZR. apply IZR_lt. lia. }
  pose proof two64_overflow. assert (L : Rabs (IZR z) < overflow64) by lra.
  pose proof (f_of_Z_rounds z) as R.
  split; [apply R, L|].
  destruct (Z.eq_dec z 0) as [->|N].
  - destruct (f_of_Z_exact_small 0) as [_ E]; [lia|]. rewrite E.
    rewrite Rminus_eq_0, !Rabs_R0. lra.
  - apply rounds_to_rel; [assumption..|]. apply small_bpow.
    assert (1 <= Rabs (IZR z)). { rewrite <- abs_IZR. apply (IZR_le 1). lia. }
    assert (1 <= IZR two64) by (apply (IZR_le 1); unfold two64; lia).
    apply Rle_trans with 1; [|assumption].
    apply Rmult_le_reg_r with (IZR two64); [lra|]. field_simplify; lra.
Qed.

Lemma quot_rel n d N D f u : 0 < u -> u <= 1 / 16 -> 0 < n -> 0 < d ->
  Rabs (N - n) <= u * n -> Rabs (D - d) <= u * d -> Rabs (f - N / D) <= u * (N / D) ->
  Rabs (f - n / d) <= 4 * u * (n / d).
Proof.
  intros U1 U2 Hn Hd HN HD Hf.
  assert (N1 : (1 - u) * n <= N <= (1 + u) * n) by (revert HN; unfold Rabs; destruct Rcase_abs; lra).
  assert (D1 : (1 - u) * d <= D <= (1 + u) * d) by (revert HD; unfold Rabs; destruct Rcase_abs; lra).
  assert (DP : 0 < D) by nra.
  assert (NP : 0 < N) by nra.
  set (v := n / d) in *. set (w := N / D) in *.
  assert (Ev : n = v * d) by (unfold v; field; lra).
  assert (Ew : N = w * D) by (unfold w; field; lra).
  assert (VP : 0 < v) by (unfold v; apply Rdiv_lt_0_compat; lra).
  assert (WP : 0 < w) by (unfold w; apply Rdiv_lt_0_compat; lra).
  clearbody v w. rewrite Ev, Ew in N1. clear HN HD.
  (* (1-u) v d <= w D <= (1+u) v d, (1-u) d <= D <= (1+u) d *)
  assert (W1 : w * (1 - u) <= (1 + u) * v).
  { apply Rmult_le_reg_r with d; [assumption|]. nra. }
  assert (W2 : (1 - u) * v <= w * (1 + u)).
  { apply Rmult_le_reg_r with d; [assumption|]. nra. }
  assert (F1 : (1 - u) * w <= f <= (1 + u) * w) by (revert Hf; unfold Rabs; destruct Rcase_abs; lra).
  assert (G1 : f <= v + 4 * u * v).
  { apply Rmult_le_reg_r with (1 - u); [lra|].
    apply Rle_trans with ((1 + u) * (1 + u) * v); [nra|].
    replace ((v + 4 * u * v) * (1 - u)) with (v * ((1 + 4 * u) * (1 - u))) by ring.
    replace ((1 + u) * (1 + u) * v) with (v * ((1 + u) * (1 + u))) by ring.
    apply Rmult_le_compat_l; [lra|]. nra. }
  assert (G2 : v - 4 * u * v <= f).
  { apply Rmult_le_reg_r with (1 + u); [lra|].
    apply Rle_trans with ((1 - u) * (1 - u) * v); [|nra].
    replace ((v - 4 * u * v) * (1 + u)) with (v * ((1 - 4 * u) * (1 + u))) by ring.
    replace ((1 - u) * (1 - u) * v) with (v * ((1 - u) * (1 - u))) by ring.
    apply Rmult_le_compat_l; [lra|]. nra. }
  unfold Rabs. destruct Rcase_abs; lra.
Qed.

Lemma rat_rel s n d : (s = 1 \/ s = -1)%Z -> (0 < n < two64)%Z -> (0 < d < two64)%Z ->
  f_finite (f_div (f_mul (f_of_Z s) (f_of_Z n)) (f_of_Z d)) /\
  Rabs (fR (f_div (f_mul (f_of_Z s) (f_of_Z n)) (f_of_Z d)) - IZR s * (IZR n / IZR d))
    <= 4 * u53 * (IZR n / IZR d).
Proof.
  intros Hs Hn Hd.
  destruct (f_of_Z_exact_small s) as [Fs Es]; [lia|].
  destruct (f_of_Z_range n Hn) as [Fn Rn]. destruct (f_of_Z_range d Hd) as [Fd Rd].
  destruct (int_rel n) as [_ En]; [lia|]. destruct (int_rel d) as [_ Ed]; [lia|].
  assert (Pn : 1 <= IZR n) by (apply (IZR_le 1); lia).
  assert (Pd : 1 <= IZR d) by (apply (IZR_le 1); lia).
  rewrite (Rabs_pos_eq (IZR n)) in En by lra. rewrite (Rabs_pos_eq (IZR d)) in Ed by lra.
  set (N := fR (f_of_Z n)) in *. set (D := fR (f_of_Z d)) in *.
  pose proof (f_mul_rounds _ _ (f_of_Z_is s) (f_of_Z_is n) Fs Fn) as P. rewrite Es in P. fold N in P.
  assert (f_finite (f_mul (f_of_Z s) (f_of_Z n)) /\ fR (f_mul (f_of_Z s) (f_of_Z n)) = IZR s * N) as [Fp Ep].
  { destruct Hs as [-> | ->].
    - apply (rounds_to_exact _ _ (f_of_Z n) P (f_of_Z_is n) Fn). fold N. ring.
    - apply (rounds_to_exact _ _ (f_neg (f_of_Z n)) P (f_neg_is _ (f_of_Z_is n)) (f_neg_finite _ Fn)).
      rewrite fR_neg. fold N. ring. }
  pose proof (f_div_rounds _ _ (proj1 P) (f_of_Z_is d) Fp Fd ltac:(fold D; lra)) as Q.
  rewrite Ep in Q. fold D in Q. set (f := f_div _ _) in *. clearbody f N D. clear P.
  assert (T : 1 <= IZR two64) by (apply (IZR_le 1); unfold two64; lia).
  assert (W : 1 / IZR two64 <= N / D <= IZR two64).
  { split.
    - apply Rmult_le_reg_r with (IZR two64 * D); [nra|].
      replace (1 / IZR two64 * (IZR two64 * D)) with D by (field; lra).
      replace (N / D * (IZR two64 * D)) with (N * IZR two64) by (field; lra). nra.
    - apply Rmult_le_reg_r with D; [lra|].
      replace (N / D * D) with N by (field; lra). nra. }
  assert (TP : 0 < 1 / IZR two64) by (apply Rdiv_lt_0_compat; lra).
  assert (AW : Rabs (IZR s * N / D) = N / D).
  { replace (IZR s * N / D) with (IZR s * (N / D)) by (unfold Rdiv; ring).
    rewrite Rabs_mult, (Rabs_pos_eq (N / D)) by lra.
    destruct Hs as [-> | ->]; [rewrite Rabs_R1|rewrite Rabs_left by lra]; ring. }
  pose proof two64_overflow.
  assert (L : Rabs (IZR s * N / D) < overflow64) by (rewrite AW; lra).
  split; [apply Q, L|].
  pose proof (rounds_to_rel _ _ Q L) as E. rewrite AW in E.
  specialize (E ltac:(rewrite <- AW; apply small_bpow; rewrite AW; lra)).
  assert (E' : Rabs (IZR s * fR f - N / D) <= u53 * (N / D)).
  { replace (IZR s * fR f - N / D) with (IZR s * (fR f - IZR s * N / D)).
    - rewrite Rabs_mult. replace (Rabs (IZR s)) with 1; [now rewrite Rmult_1_l|].
      destruct Hs as [-> | ->]; [now rewrite Rabs_R1|rewrite Rabs_left by lra; ring].
    - destruct Hs as [-> | ->]; field; lra. }
  assert (U : 0 < u53 <= 1 / 16) by (rewrite u53_val; lra).
  pose proof (quot_rel (IZR n) (IZR d) N D (IZR s * fR f) u53 (proj1 U) (proj2 U)
                ltac:(lra) ltac:(lra) En Ed E') as K.
  replace (fR f - IZR s * (IZR n / IZR d)) with (IZR s * (IZR s * fR f - IZR n / IZR d)).
  - rewrite Rabs_mult. replace (Rabs (IZR s)) with 1; [now rewrite Rmult_1_l|].
    destruct Hs as [-> | ->]; [now rewrite Rabs_R1|rewrite Rabs_left by lra; ring].
  - destruct Hs as [-> | ->]; ring.
Qed.

Lemma exact_rel x q : num_ok x -> exact_Q x = Some q ->
  f_finite (val_f64 (nval x)) /\ Rabs (fR (val_f64 (nval x)) - Q2R q) <= 4 * u53 * Rabs (Q2R q).
Proof.
  intros [I0 _] H. assert (U : 0 < u53) by (rewrite u53_val; lra).
  unfold exact_Q in H. destruct (nval x) as [z|r|f] eqn:E; [| |discriminate].
  - simpl in H. injection H as <-. cbn [val_f64]. rewrite Q2R_Z. simpl in I0.
    unfold in_i64 in I0. apply andb_prop in I0 as [A C]. apply Z.leb_le in A. apply Z.ltb_lt in C.
    destruct (int_rel z) as [F K]; [unfold two63, two64 in *; lia|].
    split; [assumption|]. pose proof (Rabs_pos (IZR z)). nra.
  - cbn [val_Q] in H. destruct (rden r =? 0)%Z eqn:Ed; [discriminate|]. injection H as <-.
    apply Z.eqb_neq in Ed. destruct I0 as [[Is [In Id]] Iz].
    assert (Eq : Q2R (ratQ r) = IZR (rsign r) * (IZR (rnum r) / IZR (rden r))).
    { unfold ratQ, Q2R. cbn [Qnum Qden]. rewrite Z2Pos.id by lia. rewrite mult_IZR.
      unfold Rdiv. ring. }
    destruct (Z.eq_dec (rnum r) 0) as [N|N].
    + assert (Z0 : val_is_zero (Rational r) = true).
      { simpl. rewrite N. simpl. now apply negb_true_iff, Z.eqb_neq. }
      destruct (val_zero_f64 (Rational r) (conj (conj Is (conj In Id)) Iz) Z0) as [F K].
      split; [exact F|]. rewrite K, Eq, N. unfold Rdiv.
      rewrite Rmult_0_l, Rmult_0_r, Rminus_0_r, Rabs_R0. lra.
    + assert (Hs : (rsign r = 1 \/ rsign r = -1)%Z).
      { destruct Is as [Is|[Is|[Is _]]]; auto. exfalso. apply Ed, Iz, Is. }
      destruct (rat_rel (rsign r) (rnum r) (rden r) Hs) as [F K]; [lia|lia|].
      split; [exact F|]. cbn [val_f64]. rewrite Eq.
      replace (Rabs (IZR (rsign r) * (IZR (rnum r) / IZR (rden r)))) with (IZR (rnum r) / IZR (rden r)); [exact K|].
      rewrite Rabs_mult.
      assert (0 < IZR (rnum r) / IZR (rden r)).
      { apply Rdiv_lt_0_compat; apply (IZR_lt 0); lia. }
      rewrite (Rabs_pos_eq (_ / _)) by lra.
      destruct Hs as [-> | ->]; [rewrite Rabs_R1|rewrite Rabs_left by lra]; ring.
Qed.
