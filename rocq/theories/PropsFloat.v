(** * PropsFloat: theorems about floating-point numbers (C13, C14, C15, C16, C46) *)
From Coq Require Import ZArith QArith List String Bool Lia Lra.
From Coq Require Import Reals Qreals.
From Coq Require Import Floats.SpecFloat.
From Verif Require Import Base Float Rational SmartNum Ast Spec SpecF.
From Verif Require Import BaseProofs RationalProofs NumProofs NumProofs2 FloatProofs FloatNum FloatNum2 ConstProofs.
Open Scope R_scope.

(** ** C13: arithmetic with an f64 operand is correctly rounded *)
Theorem c13_add m x y a b : real_build m -> api_number m x -> api_number m y ->
  f64_backed x \/ f64_backed y ->
  sn_to_f64 m x = Ok a -> sn_to_f64 m y = Ok b -> f_finite a -> f_finite b ->
  exists z c, sn_add m x y = Ok z /\ sn_to_f64 m z = Ok c /\ rounds_to (fR a + fR b) c.
Proof.
  intros Hm Hx Hy B Ha Hb Fa Fb. rewrite sn_to_f64_eq in Ha, Hb by assumption.
  injection Ha as <-. injection Hb as <-.
  apply sn_add_rounds; try assumption; eauto using api_number_ok, api_number_valid.
Qed.
Print Assumptions c13_add.

Theorem c13_sub m x y a b : real_build m -> api_number m x -> api_number m y ->
  f64_backed x \/ f64_backed y ->
  sn_to_f64 m x = Ok a -> sn_to_f64 m y = Ok b -> f_finite a -> f_finite b ->
  exists z c, sn_sub m x y = Ok z /\ sn_to_f64 m z = Ok c /\ rounds_to (fR a - fR b) c.
Proof.
  intros Hm Hx Hy B Ha Hb Fa Fb. rewrite sn_to_f64_eq in Ha, Hb by assumption.
  injection Ha as <-. injection Hb as <-.
  apply sn_sub_rounds; try assumption; eauto using api_number_ok, api_number_valid.
Qed.
Print Assumptions c13_sub.

Theorem c13_mul m x y a b : real_build m -> api_number m x -> api_number m y ->
  f64_backed x \/ f64_backed y ->
  sn_to_f64 m x = Ok a -> sn_to_f64 m y = Ok b -> f_finite a -> f_finite b ->
  exists z c, sn_mul m x y = Ok z /\ sn_to_f64 m z = Ok c /\ rounds_to (fR a * fR b) c.
Proof.
  intros Hm Hx Hy B Ha Hb Fa Fb. rewrite sn_to_f64_eq in Ha, Hb by assumption.
  injection Ha as <-. injection Hb as <-.
  apply sn_mul_rounds; try assumption; eauto using api_number_ok, api_number_valid.
Qed.
Print Assumptions c13_mul.

Theorem c13_div m x y a b : real_build m -> api_number m x -> api_number m y ->
  f64_backed x \/ f64_backed y ->
  sn_to_f64 m x = Ok a -> sn_to_f64 m y = Ok b -> f_finite a -> f_finite b -> fR b <> 0 ->
  exists z c, sn_div m x y = Ok z /\ sn_to_f64 m z = Ok c /\ rounds_to (fR a / fR b) c.
Proof.
  intros Hm Hx Hy B Ha Hb Fa Fb N. rewrite sn_to_f64_eq in Ha, Hb by assumption.
  injection Ha as <-. injection Hb as <-.
  apply sn_div_rounds; try assumption; eauto using api_number_ok, api_number_valid.
Qed.
Print Assumptions c13_div.

(** negation is exact *)
Theorem c13_neg m x f : real_build m -> nval x = Real f -> f_finite f ->
  exists z c, sn_neg m x = Ok z /\ sn_to_f64 m z = Ok c /\ f_finite c /\ fR c = - fR f.
Proof.
  intros Hm Hx F. unfold sn_neg. rewrite guard_real, Hx by assumption. cbn [val_neg bind].
  eexists. exists (f_neg f). split; [reflexivity|]. split; [rewrite wrap_real; reflexivity|].
  split; [now apply f_neg_finite|apply fR_neg].
Qed.
Print Assumptions c13_neg.

(** an integer operand is first converted to its nearest f64 *)
Theorem c13_integer_conversion m v : real_build m -> in_i64 v = true ->
  exists f, sn_to_f64 m (sn_of_i64 v) = Ok f /\ rounds_to (IZR v) f.
Proof.
  intros Hm _. exists (f_of_Z v). split; [now rewrite sn_to_f64_eq|apply f_of_Z_rounds].
Qed.
Print Assumptions c13_integer_conversion.

(** the f64 inside any number the API produces is a genuine binary64 datum *)
Theorem c13_binary64 m x f : real_build m -> api_number m x -> nval x = Real f -> is_f64 f.
Proof. intros Hm Hx E. pose proof (api_number_valid m x Hm Hx) as H. now rewrite E in H. Qed.
Print Assumptions c13_binary64.

Definition f_tenth : f64 := S754_finite false 7205759403792794 (-56).  (* 0.1 *)
Example c13_example : is_f64 f_tenth /\ api_number Debug (sn_of_f64 f_tenth) /\
  f64_backed (sn_of_f64 f_tenth) /\ f_finite f_tenth /\ api_number Debug (sn_of_i64 3) /\
  sn_mul Debug (sn_of_i64 3) (sn_of_f64 f_tenth)
    = Ok (sn_of_f64 (S754_finite false 5404319552844596 (-54))).   (* 0.30000000000000004 *)
Proof.
  assert (is_f64 f_tenth) by (left; cbv; intuition discriminate).
  split; [assumption|]. split; [now constructor|]. split; [now exists f_tenth|].
  split; [exact I|]. split; [now constructor|]. vm_compute. reflexivity.
Qed.

(** ** C14: is_close *)
Theorem c14_symmetric m x y eps : real_build m -> sn_is_close m x y eps = sn_is_close m y x eps.
Proof. intros Hm. rewrite !sn_is_close_eq by assumption. now rewrite abs_sub_sym. Qed.
Print Assumptions c14_symmetric.

Theorem c14_returns m x y eps : real_build m -> exists r, sn_is_close m x y eps = Ok r.
Proof. intros Hm. rewrite sn_is_close_eq by assumption. eauto. Qed.
Print Assumptions c14_returns.

Theorem c14_reflexive m x a eps : real_build m -> api_number m x ->
  sn_to_f64 m x = Ok a -> f_finite a -> is_f64 eps -> f_finite eps -> 0 < fR eps ->
  sn_is_close m x x eps = Ok true.
Proof.
  intros Hm Hx Ha Fa Ie Fe He. rewrite sn_is_close_eq by assumption. f_equal.
  rewrite sn_to_f64_eq in Ha by assumption. injection Ha as <-.
  pose proof (val_f64_is _ (api_number_valid m x Hm Hx)) as Ia.
  destruct (sub_self _ Fa Ia) as [F0 E0].
  apply f_ltb_correct; auto using f_abs_is, f_abs_finite, f_sub_is.
  now rewrite fR_abs, E0, Rabs_R0.
Qed.
Print Assumptions c14_reflexive.

(** NaN and infinities are close to nothing, not even themselves *)
Theorem c14_not_finite m x y a eps : real_build m -> sn_to_f64 m x = Ok a -> ~ f_finite a ->
  sn_is_close m x y eps = Ok false /\ sn_is_close m y x eps = Ok false.
Proof.
  intros Hm Ha Na. rewrite (c14_symmetric m y x) by assumption.
  enough (H : sn_is_close m x y eps = Ok false) by (split; exact H).
  rewrite sn_is_close_eq by assumption.
  rewrite sn_to_f64_eq in Ha by assumption. injection Ha as Ha. rewrite Ha. f_equal.
  destruct a as [s|s| |s p k]; try (now elim Na).
  - destruct (val_f64 (nval y)) as [t|t| |t q l]; try apply f_ltb_inf_l; [|reflexivity].
    destruct s, t; try reflexivity; apply f_ltb_inf_l.
  - destruct (val_f64 (nval y)) as [t|t| |t q l]; reflexivity.
Qed.
Print Assumptions c14_not_finite.

(** what the answer means: "close" implies the exact distance is below eps ... *)
Theorem c14_sound m x y a b eps : real_build m -> api_number m x -> api_number m y ->
  sn_to_f64 m x = Ok a -> sn_to_f64 m y = Ok b -> f_finite a -> f_finite b ->
  is_f64 eps -> f_finite eps ->
  sn_is_close m x y eps = Ok true -> Rabs (fR a - fR b) < fR eps.
Proof.
  intros Hm Hx Hy Ha Hb Fa Fb Ie Fe H. rewrite sn_is_close_eq in H by assumption. injection H as H.
  rewrite sn_to_f64_eq in Ha, Hb by assumption. injection Ha as <-. injection Hb as <-.
  eapply close_sound; eauto. apply f_sub_rounds; auto.
  - eapply val_f64_is, api_number_valid; eassumption.
  - eapply val_f64_is, api_number_valid; eassumption.
Qed.
Print Assumptions c14_sound.

(** ... and "not close" implies that no f64 lies between the exact distance and eps *)
Theorem c14_complete m x y a b e eps : real_build m -> api_number m x -> api_number m y ->
  sn_to_f64 m x = Ok a -> sn_to_f64 m y = Ok b -> f_finite a -> f_finite b ->
  is_f64 eps -> f_finite eps -> is_f64 e -> f_finite e ->
  Rabs (fR a - fR b) <= fR e -> fR e < fR eps -> sn_is_close m x y eps = Ok true.
Proof.
  intros Hm Hx Hy Ha Hb Fa Fb Ie Fe Ig Fg H1 H2. rewrite sn_is_close_eq by assumption. f_equal.
  rewrite sn_to_f64_eq in Ha, Hb by assumption. injection Ha as <-. injection Hb as <-.
  apply (close_complete (fR (val_f64 (nval x)) - fR (val_f64 (nval y))) _ e); auto.
  apply f_sub_rounds; auto.
  - eapply val_f64_is, api_number_valid; eassumption.
  - eapply val_f64_is, api_number_valid; eassumption.
Qed.
Print Assumptions c14_complete.

Example c14_example :
  sn_is_close Debug (sn_of_f64 f_tenth) sn_zero f_one = Ok true /\
  sn_is_close Debug sn_pi sn_e f_tenth = Ok false /\
  sn_is_close Debug (sn_of_f64 S754_nan) (sn_of_f64 S754_nan) (S754_infinity false) = Ok false.
Proof. vm_compute. auto. Qed.

(** ** C15: near *)

(** an error exactly when one side is not a number (apart from panics) *)
Theorem c15_error m a b eps :
  (is_num a = false \/ is_num b = false -> e_near m a b eps = Ok None) /\
  (e_near m a b eps = Ok None -> is_num a = false \/ is_num b = false).
Proof.
  unfold e_near, is_num, lift_od, to_smart_num.
  destruct (root a) as [oa|[na|va]]; simpl; auto.
  destruct (root b) as [ob|[nb|vb]]; simpl; auto.
  split; [intros [H|H]; discriminate|].
  intros H. repeat inv_bind H. discriminate H.
Qed.
Print Assumptions c15_error.

(** with an f64 on one side it never panics, says "near" only if the exact distance is below
    eps, and says it whenever an f64 separates the distance from eps *)
Theorem c15_f64 m x y a b eps : real_build m -> api_number m x -> api_number m y ->
  f64_backed x \/ f64_backed y ->
  sn_to_f64 m x = Ok a -> sn_to_f64 m y = Ok b -> f_finite a -> f_finite b ->
  is_f64 eps -> f_finite eps ->
  exists r, e_near m (e_num x) (e_num y) eps = Ok (Some r) /\
    (r = true -> Rabs (fR a - fR b) < fR eps) /\
    (forall e, is_f64 e -> f_finite e -> Rabs (fR a - fR b) <= fR e -> fR e < fR eps -> r = true).
Proof.
  intros Hm Hx Hy B Ha Hb Fa Fb Ie Fe.
  destruct (c13_sub m x y a b Hm Hx Hy B Ha Hb Fa Fb) as [z [c [E1 [E2 R]]]].
  exists (f_ltb (f_abs c) eps). split; [|split].
  - unfold e_near. simpl. rewrite E1. cbn [bind]. rewrite E2. reflexivity.
  - intros H. now apply (close_sound _ c).
  - intros e I1 I2 I3 I4. now apply (close_complete _ _ e eps R).
Qed.
Print Assumptions c15_f64.

(** integers whose difference does not overflow: the same *)
Theorem c15_integers m u v eps : real_build m -> in_i64 u = true -> in_i64 v = true ->
  in_i64 (u - v) = true -> is_f64 eps -> f_finite eps ->
  exists r, e_near m (e_of_i64 u) (e_of_i64 v) eps = Ok (Some r) /\
    (r = true -> IZR (Z.abs (u - v)) < fR eps) /\
    (forall e, is_f64 e -> f_finite e -> IZR (Z.abs (u - v)) <= fR e -> fR e < fR eps -> r = true).
Proof.
  intros Hm Hu Hv Hd Ie Fe.
  assert (E : exists z, sn_sub m (sn_of_i64 u) (sn_of_i64 v) = Ok z /\ nval z = Integer (u - v)).
  { unfold sn_sub. rewrite !sn_is_zero_int.
    destruct (u =? 0)%Z eqn:Eu.
    - apply Z.eqb_eq in Eu. subst u. unfold sn_neg. rewrite guard_real by assumption.
      cbn [nval sn_of_i64 sn_of_val val_of_i64 val_neg]. unfold i64_neg, ovf_i64.
      change (0 - v)%Z with (- v)%Z in *. rewrite Hd. cbn [bind]. eexists. split; [reflexivity|].
      unfold wrap_val. simpl. destruct (Z.eqb_spec (- v) 0) as [e|]; [simpl; now rewrite e|].
      destruct (Z.eqb_spec (- v) 1) as [e|]; [simpl; now rewrite e|reflexivity].
    - destruct (v =? 0)%Z eqn:Ev.
      + apply Z.eqb_eq in Ev. subst v. eexists. split; [reflexivity|]. simpl. now rewrite Z.sub_0_r.
      + rewrite guard_real by assumption. cbn [nval sn_of_i64 sn_of_val val_of_i64 val_sub].
        unfold i64_sub, ovf_i64. rewrite Hd. cbn [bind]. eexists. split; [reflexivity|].
        unfold wrap_val. simpl. destruct (Z.eqb_spec (u - v) 0) as [e|]; [simpl; now rewrite e|].
        destruct (Z.eqb_spec (u - v) 1) as [e|]; [simpl; now rewrite e|reflexivity]. }
  destruct E as [z [E1 E2]].
  exists (f_ltb (f_abs (f_of_Z (u - v))) eps). rewrite abs_IZR. split; [|split].
  - unfold e_near. simpl. rewrite E1. cbn [bind]. rewrite sn_to_f64_eq, E2 by assumption. reflexivity.
  - intros H. apply (close_sound _ (f_of_Z (u - v))); auto. apply f_of_Z_rounds.
  - intros e I1 I2 I3 I4. apply (close_complete _ _ e eps (f_of_Z_rounds (u - v))); auto.
Qed.
Print Assumptions c15_integers.

(** symmetry fails in a debug build: one order panics, the other answers *)
Theorem c15_symmetry_refuted :
  e_near Debug (e_of_i64 0) (e_of_i64 (- two63)) f_one = Panic /\
  e_near Debug (e_of_i64 (- two63)) (e_of_i64 0) f_one = Ok (Some false).
Proof. vm_compute. auto. Qed.
Print Assumptions c15_symmetry_refuted.

(** a release build calls i64::MAX and i64::MIN near: the difference wraps to -1 *)
Theorem c15_release_wrap_refuted :
  e_near Release (e_of_i64 (two63 - 1)) (e_of_i64 (- two63)) (f_of_Z 2) = Ok (Some true).
Proof. vm_compute. auto. Qed.
Print Assumptions c15_release_wrap_refuted.

Example c15_example : e_near Debug (e_of_i64 7) (e_of_i64 5) (f_of_Z 3) = Ok (Some true) /\
  e_near Debug e_pi (e_of_i64 3) f_tenth = Ok (Some false) /\
  e_near Debug (e_var "x") (e_of_i64 3) f_tenth = Ok None.
Proof. vm_compute. auto. Qed.

(** ** C16: conversion from f32 is exact *)
Theorem c16_from_f32 f : is_f32 f -> f_finite f ->
  oQeq (val_Q (nval (sn_of_f32 f))) (f_val f) /\ f64_backed (sn_of_f32 f) /\
  exists g, nval (sn_of_f32 f) = Real g /\ is_f64 g.
Proof.
  intros I1 F. destruct (f32_exact f I1 F) as [G E]. split; [|split].
  - cbn [sn_of_f32 sn_of_val nval val_of_f32 val_Q]. revert E. unfold fR.
    destruct f as [s|s| |s p k]; try (now elim F).
    destruct (f_val (f_of_f32 (S754_finite s p k))) eqn:E1.
    + simpl f_val. intros E. simpl. apply eqR_Qeq, E.
    + exfalso. destruct (f_of_f32 (S754_finite s p k)); simpl in *; try discriminate; easy.
  - exists (f_of_f32 f). reflexivity.
  - exists (f_of_f32 f). split; [reflexivity|now apply f_of_f32_is].
Qed.
Print Assumptions c16_from_f32.

Theorem c16_from_f32_special f : ~ f_finite f -> nval (sn_of_f32 f) = Real f.
Proof. destruct f; intros H; try reflexivity; now elim H. Qed.
Print Assumptions c16_from_f32_special.

Example c16_f32_example : is_f32 (S754_finite true 1 (-149)) /\
  nval (sn_of_f32 (S754_finite true 1 (-149))) = Real (S754_finite true 4503599627370496 (-201)).
Proof. split; [right; cbv; auto|vm_compute; reflexivity]. Qed.

(** ** C46: converting an exact number to f64 is accurate to 2^-51 relative *)
Theorem c46_to_f64_accuracy m x q : real_build m -> api_number m x -> exact_Q x = Some q ->
  exists f, sn_to_f64 m x = Ok f /\ is_f64 f /\ f_finite f /\
    Rabs (fR f - Q2R q) <= Rabs (Q2R q) / 2 ^ 51.
Proof.
  intros Hm Hx Hq. exists (val_f64 (nval x)). split; [now apply sn_to_f64_eq|].
  split; [apply val_f64_is, (api_number_valid m x Hm Hx)|].
  destruct (exact_rel x q (api_number_ok m x Hx) Hq) as [F K]. split; [assumption|].
  apply Rle_trans with (1 := K). rewrite u53_val. right. field.
Qed.
Print Assumptions c46_to_f64_accuracy.

(** exact (correctly rounded) for integers; NOT always for fractions, even in lowest terms:
    the two conversions and the division round separately *)
Theorem c46_double_rounding_refuted : exists n d f g,
  in_u64 n = true /\ in_u64 d = true /\ Z.gcd n d = 1%Z /\
  rat_to_f64 Debug (mkRat 1 n d) = Ok f /\ is_f64 g /\ f_finite g /\
  Rabs (fR g - IZR n / IZR d) < Rabs (fR f - IZR n / IZR d).
Proof.
  exists 9007199254740995%Z, 3%Z, (S754_finite false 6004799503160664 (-1)),
         (S754_finite false 6004799503160663 (-1)).
  split; [reflexivity|]. split; [reflexivity|]. split; [reflexivity|].
  split; [vm_compute; reflexivity|]. split; [left; cbv; intuition discriminate|].
  split; [exact I|].
  unfold fR, f_val, Q2R. cbn [Qnum Qden]. change (2 ^ 1)%positive with 2%positive.
  rewrite Rabs_left by lra. rewrite Rabs_pos_eq by lra. lra.
Qed.
Print Assumptions c46_double_rounding_refuted.

Example c46_example : exists x, sn_new_rational Debug (-1) 1 3 = Ok (Some x) /\
  exact_Q x = Some ((-1) # 3)%Q /\
  sn_to_f64 Debug x = Ok (S754_finite true 6004799503160661 (-54)).
Proof. eexists. split; [vm_compute; reflexivity|]. split; vm_compute; reflexivity. Qed.

(** ** C47: the f64 stored for pi and e is the correctly rounded true constant *)
Theorem c47_pi m : real_build m ->
  exists f, sn_to_f64 m sn_pi = Ok f /\ rounds_to PI f.
Proof. intros _. exists f_PI. split; [reflexivity|exact rounds_PI]. Qed.
Print Assumptions c47_pi.

Theorem c47_e m : real_build m ->
  exists f, sn_to_f64 m sn_e = Ok f /\ rounds_to (exp 1) f.
Proof. intros _. exists f_E. split; [reflexivity|exact rounds_E]. Qed.
Print Assumptions c47_e.

(** [rounds_to] is not satisfied by a neighbouring float *)
Example c47_example : ~ rounds_to PI (S754_finite false 7074237752028441 (-51)).
Proof.
  intros [_ [H _]].
  destruct PI_dec as [A B]. unfold pi_lo, pi_hi, Q2R in A, B. cbn [Qnum Qden] in A, B.
  assert (O : 4 < overflow64).
  { unfold overflow64. apply (IZR_lt 4). vm_compute. reflexivity. }
  destruct H as [_ H]; [rewrite Rabs_pos_eq; lra|].
  assert (I1 : is_f64 f_PI) by (left; cbv; intuition discriminate).
  destruct (H f_PI I1 I) as [K _]. revert K. unfold fR, f_PI, f_val, Q2R. cbn [Qnum Qden].
  change (2 ^ 51)%positive with 2251799813685248%positive.
  unfold Rabs. repeat destruct Rcase_abs; lra.
Qed.
