(** * PropsFloat2: NaN, infinities and division by zero (C13), fractions and near (C15) *)
From Coq Require Import ZArith QArith List String Bool Lia Lra.
From Coq Require Import Reals Qreals.
From Coq Require Import Floats.SpecFloat.
From Verif Require Import Base Float Rational SmartNum Ast Spec SpecF SpecF2.
From Verif Require Import SpecExact BaseProofs RationalProofs NumProofs NumProofs2 FloatProofs FloatNum FloatNum2 ConstProofs ExactProofs PropsNum.
Open Scope R_scope.

Lemma fR_neg_sign p e : fR (S754_finite true p e) < 0.
Proof.
  unfold fR, f_val. rewrite <- RMicromega.Q2R_0. apply Qlt_Rlt. destruct e as [|k|k].
  - reflexivity.
  - unfold Qlt, inject_Z. cbn [Qnum Qden]. rewrite Z.mul_0_l, Z.mul_1_r. pose proof (Z.pow_pos_nonneg 2 (Z.pos k)). lia.
  - reflexivity.
Qed.

Lemma pos_float f : f_finite f -> 0 < fR f -> exists p e, f = S754_finite false p e.
Proof.
  intros F H. destruct f as [s|s| |s p e]; try destruct F.
  - unfold fR in H. cbn in H. rewrite RMicromega.Q2R_0 in H. lra.
  - destruct s; [|eauto]. pose proof (fR_neg_sign p e). lra.
Qed.

Lemma zero_float f : is_f64 f -> f_finite f -> fR f = 0 -> exists s, f = S754_zero s.
Proof.
  intros I F H. destruct f as [s|s| |s p e]; try destruct F; [eauto|].
  exfalso. destruct s.
  - pose proof (fR_neg_sign p e). lra.
  - assert (fR (S754_finite true p e) = - fR (S754_finite false p e)) as E.
    { unfold fR, f_val. rewrite <- Q2R_opp. apply Qeq_eqR. destruct e; try reflexivity.
      unfold Qeq, Qopp, inject_Z. cbn [Qnum Qden]. change (Z.neg p) with (- Z.pos p)%Z. ring. }
    pose proof (fR_neg_sign p e). lra.
Qed.

(** ** C13 special values *)
Theorem c13_special m x y a b c : real_build m -> api_number m x -> api_number m y ->
  f64_backed x \/ f64_backed y -> sn_to_f64 m x = Ok a -> sn_to_f64 m y = Ok b ->
  (special_add a b = Some c -> exists z, sn_add m x y = Ok z /\ sn_to_f64 m z = Ok c) /\
  (special_sub a b = Some c -> exists z, sn_sub m x y = Ok z /\ sn_to_f64 m z = Ok c) /\
  (special_mul a b = Some c -> sn_is_zero x = false -> sn_is_zero y = false ->
     exists z, sn_mul m x y = Ok z /\ sn_to_f64 m z = Ok c) /\
  (special_div a b = Some c -> sn_is_zero x = false -> exists z, sn_div m x y = Ok z /\ sn_to_f64 m z = Ok c).
Proof.
  intros Hm Hx Hy B Ha Hb. rewrite sn_to_f64_eq in Ha, Hb by assumption.
  injection Ha as Ea. injection Hb as Eb.
  pose proof (api_number_ok m x Hx) as Ox. pose proof (api_number_ok m y Hy) as Oy.
  pose proof (val_f64_is _ (api_number_valid m x Hm Hx)) as Ia. pose proof (val_f64_is _ (api_number_valid m y Hm Hy)) as Ib.
  assert (sn_is_zero x = true -> exists s, a = S754_zero s) as Zx.
  { intros Z. destruct (val_zero_f64 _ (proj1 Ox) (ok_zero x Ox Z)) as [F E]. rewrite Ea in *. eapply zero_float; eassumption. }
  assert (sn_is_zero y = true -> exists s, b = S754_zero s) as Zy.
  { intros Z. destruct (val_zero_f64 _ (proj1 Oy) (ok_zero y Oy Z)) as [F E]. rewrite Eb in *. eapply zero_float; eassumption. }
  assert (sn_is_one x = true -> exists p e, a = S754_finite false p e) as Wx.
  { intros Z. destruct (val_one_f64 _ (proj1 Ox) (ok_one x Ox Z)) as [F E]. rewrite Ea in *. apply pos_float; [assumption|lra]. }
  assert (sn_is_one y = true -> exists p e, b = S754_finite false p e) as Wy.
  { intros Z. destruct (val_one_f64 _ (proj1 Oy) (ok_one y Oy Z)) as [F E]. rewrite Eb in *. apply pos_float; [assumption|lra]. }
  assert (forall v, exists z, Ok (wrap_val (Real v)) = Ok z /\ sn_to_f64 m z = Ok v) as W.
  { intros v. eexists. split; [reflexivity|]. now rewrite sn_to_f64_eq, wrap_real. }
  split; [|split; [|split]].
  - intros S. unfold sn_add. destruct (sn_is_zero x) eqn:E1.
    { exists y. split; [reflexivity|]. rewrite sn_to_f64_eq, Eb by assumption. destruct (Zx eq_refl) as [s ->].
      destruct b; cbn in S; try discriminate; congruence. }
    destruct (sn_is_zero y) eqn:E2.
    { exists x. split; [reflexivity|]. rewrite sn_to_f64_eq, Ea by assumption. destruct (Zy eq_refl) as [s ->].
      destruct a; cbn in S; try discriminate; congruence. }
    rewrite guard_real, val_add_real, Ea, Eb by auto using backed_real. cbn [bind].
    replace c with (f_add a b); [apply W|].
    destruct a as [s|s| |s p e], b as [t|t| |t q k]; cbn in *; try discriminate; try congruence; destruct s, t; cbn in *; congruence.
  - intros S. unfold sn_sub. destruct (sn_is_zero x) eqn:E1.
    { assert (exists f, nval y = Real f) as [f Ef].
      { destruct B as [[f Ef]|K]; [|exact K]. pose proof (ok_zero x Ox E1) as Ez. rewrite Ef in Ez. discriminate. }
      unfold sn_neg. rewrite guard_real by assumption. rewrite Ef. cbn [val_neg bind].
      rewrite Ef in Eb. cbn in Eb. subst f. destruct (Zx eq_refl) as [s ->].
      replace c with (f_neg b); [apply W|]. destruct b; cbn in *; try discriminate; congruence. }
    destruct (sn_is_zero y) eqn:E2.
    { exists x. split; [reflexivity|]. rewrite sn_to_f64_eq, Ea by assumption. destruct (Zy eq_refl) as [s ->].
      destruct a; cbn in S; try discriminate; congruence. }
    rewrite guard_real, val_sub_real, Ea, Eb by auto using backed_real. cbn [bind].
    replace c with (f_sub a b); [apply W|].
    destruct a as [s|s| |s p e], b as [t|t| |t q k]; cbn in *; try discriminate; try congruence; destruct s, t; cbn in *; congruence.
  - intros S Nx Ny. unfold sn_mul. destruct (sn_is_one x) eqn:E1.
    { exists y. split; [reflexivity|]. rewrite sn_to_f64_eq, Eb by assumption. destruct (Wx eq_refl) as (p & e & ->).
      destruct b as [t|t| |t p' e']; cbn in S; try discriminate; try destruct t; cbn in S; congruence. }
    destruct (sn_is_one y) eqn:E2.
    { exists x. split; [reflexivity|]. rewrite sn_to_f64_eq, Ea by assumption. destruct (Wy eq_refl) as (p & e & ->).
      destruct a as [t|t| |t p' e']; cbn in S; try discriminate; try destruct t; cbn in S; congruence. }
    assert (val_is_zero (nval x) = false) as V1 by (rewrite <- (is_zero_val x Ox); exact Nx).
    assert (val_is_zero (nval y) = false) as V2 by (rewrite <- (is_zero_val y Oy); exact Ny).
    rewrite guard_real, val_mul_real, Ea, Eb by auto using backed_real. cbn [bind].
    replace c with (f_mul a b); [apply W|].
    destruct a as [s|s| |s p e], b as [t|t| |t q k]; cbn in *; try discriminate; try congruence; destruct s, t; cbn in *; congruence.
  - intros S Nx. unfold sn_div.
    assert (val_is_zero (nval x) = false) as V1 by (rewrite <- (is_zero_val x Ox); exact Nx).
    rewrite guard_real, val_div_real, Ea, Eb by auto using backed_real. cbn [bind].
    replace c with (f_div a b); [apply W|].
    destruct a as [s|s| |s p e], b as [t|t| |t q k]; cbn in *; try discriminate; try congruence; destruct s, t; cbn in *; congruence.
Qed.
Print Assumptions c13_special.

(** 2.5 / 0 with an exact integer 0 is +infinity, and infinity - infinity is NaN *)
Example c13_special_example :
  let f := S754_finite false 5629499534213120 (-51) in
  (exists z, sn_div Debug (sn_of_f64 f) (sn_of_i64 0) = Ok z /\ sn_to_f64 Debug z = Ok (inf false)) /\
  (exists z, sn_sub Debug (sn_of_f64 (inf false)) (sn_of_f64 (inf false)) = Ok z /\ sn_to_f64 Debug z = Ok NaN).
Proof.
  cbv zeta. set (f := S754_finite false 5629499534213120 (-51)).
  assert (real_build Debug) as Hm by (left; reflexivity).
  assert (is_f64 f) as If by (left; repeat split; vm_compute; congruence).
  split.
  - apply (c13_special Debug (sn_of_f64 f) (sn_of_i64 0) f (zero false) (inf false) Hm (An_f64 _ _ If) (An_i64 _ 0 eq_refl)
      (or_introl (ex_intro _ f eq_refl)) eq_refl eq_refl); reflexivity.
  - apply (c13_special Debug (sn_of_f64 (inf false)) (sn_of_f64 (inf false)) (inf false) (inf false) NaN Hm
      (An_f64 _ (inf false) I) (An_f64 _ (inf false) I) (or_introl (ex_intro _ _ eq_refl)) eq_refl eq_refl); reflexivity.
Qed.

(** ** C15 near on integers and fractions whose difference is worked out without loss: right up to
    a relative error of 2^-51 in the distance *)
Theorem c15_exact m x y p q d eps : real_build m -> api_number m x -> api_number m y ->
  exact_Q x = Some p -> exact_Q y = Some q -> sn_sub Strict x y = Ok d -> is_f64 eps -> f_finite eps ->
  let dist := Rabs (Q2R p - Q2R q) in
  exists r, e_near m (e_num x) (e_num y) eps = Ok (Some r) /\
    (r = true -> dist < fR eps + dist / 2 ^ 51) /\
    (dist + dist / 2 ^ 51 < fR eps -> r = true).
Proof.
  intros Hm Hx Hy Ep Eq Hd Ie Fe dist.
  assert (sn_sub m x y = Ok d) as Hd' by (apply (c09_lossless_is_real m x y d Hm); exact Hd).
  assert (val_Q (nval x) = Some p /\ not_float x) as [Vx Kx]
    by (unfold exact_Q, not_float in *; destruct (nval x); try discriminate; auto).
  assert (val_Q (nval y) = Some q /\ not_float y) as [Vy Ky]
    by (unfold exact_Q, not_float in *; destruct (nval y); try discriminate; auto).
  destruct (proj1 (proj2 (c09_exact m x y p q Hx Hy Vx Vy)) d Hd) as (u & Vd & Eu).
  pose proof (proj1 (sn_sub_kind _ _ _ _ Hd') Kx Ky) as Kd.
  assert (exact_Q d = Some u) as Xd by (unfold exact_Q, not_float in *; destruct (nval d); try contradiction; assumption).
  assert (num_ok d) as Od by (refine (sn_sub_ok m x y d _ _ Hd'); eauto using api_number_ok).
  destruct (exact_rel d u Od Xd) as [F K].
  assert (is_f64 (val_f64 (nval d))) as Id.
  { apply val_f64_is. unfold val_valid, not_float in *. destruct (nval d); try exact I. contradiction. }
  assert (Q2R u = Q2R p - Q2R q) as Ru by (rewrite <- Q2R_minus; apply Qeq_eqR; exact Eu).
  rewrite Ru in K. fold dist in K. set (f := val_f64 (nval d)) in *.
  assert (4 * u53 * dist = dist / 2 ^ 51) as EE by (rewrite u53_val; field).
  rewrite EE in K.
  exists (f_ltb (f_abs f) eps). split.
  { unfold e_near, e_num. cbn [to_smart_num root]. rewrite Hd'. cbn [bind]. rewrite sn_to_f64_eq by assumption. reflexivity. }
  rewrite (f_ltb_correct (f_abs f) eps (f_abs_is _ Id) Ie (f_abs_finite _ F) Fe), fR_abs.
  pose proof (Rabs_triang_inv (fR f) (Q2R p - Q2R q)) as T1.
  pose proof (Rabs_triang_inv (Q2R p - Q2R q) (fR f)) as T2. rewrite (Rabs_minus_sym (Q2R p - Q2R q)) in T2.
  fold dist in T1, T2. split; intros H; lra.
Qed.
Print Assumptions c15_exact.

(** 1/3 is within 1.0 of 1/7 *)
Example c15_exact_example : exists x y d,
  sn_new_rational Debug 1 1 3 = Ok (Some x) /\ sn_new_rational Debug 1 1 7 = Ok (Some y) /\
  sn_sub Strict x y = Ok d /\ e_near Debug (e_num x) (e_num y) f_one = Ok (Some true) /\
  e_near Release (e_num y) (e_num x) f_one = Ok (Some true).
Proof. do 3 eexists. repeat split; vm_compute; reflexivity. Qed.
