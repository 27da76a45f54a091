(** * FloatProofs: the model's f64 operations are correctly rounded (via Flocq) *)
From Coq Require Import ZArith QArith List Bool Lia Lra.
From Coq Require Import Reals Qreals.
From Coq Require Import Floats.SpecFloat.
From Flocq Require Import Core.Core.
From Flocq Require Import IEEE754.BinarySingleNaN.
From Verif Require Import Base Float Rational SmartNum Ast Spec SpecF.
Open Scope R_scope.

#[local] Instance prec_pos : Prec_gt_0 53 := eq_refl.
#[local] Instance prec_max : Prec_lt_emax 53 1024 := eq_refl.

Notation B64 := (binary_float 53 1024).
Notation fexp64 := (SpecFloat.fexp 53 1024).

#[local] Instance vexp : Valid_exp fexp64 := FLT_exp_valid (-1074) 53.
#[local] Instance monexp : Monotone_exp fexp64 := FLT_exp_monotone (-1074) 53.
#[local] Instance ne_exp : Exists_NE radix2 fexp64.
Proof. apply exists_NE_FLT. right. reflexivity. Qed.

(** ** the standard library's operations are Flocq's (as in Flocq's own PrimFloat.v, which
    we do not load because it brings in primitive floats) *)
Lemma round_nearest_even_equiv s m l :
  round_nearest_even m l = choice_mode mode_NE s m l.
Proof.
  case l; [reflexivity|intro c].
  case c; [ | reflexivity..].
  now simpl; unfold Round.cond_incr; case Z.even.
Qed.

Lemma binary_round_aux_equiv prec emax sx mx ex lx :
  SpecFloat.binary_round_aux prec emax sx mx ex lx
  = binary_round_aux prec emax mode_NE sx mx ex lx.
Proof.
  unfold SpecFloat.binary_round_aux, binary_round_aux.
  set (mrse' := shr_fexp _ _ _).
  case mrse'; intros mrs' e'; simpl.
  now rewrite (round_nearest_even_equiv sx).
Qed.

Lemma binary_round_equiv prec emax s m e :
  SpecFloat.binary_round prec emax s m e =
  binary_round prec emax mode_NE s m e.
Proof.
  unfold SpecFloat.binary_round, binary_round, shl_align_fexp.
  set (mez := shl_align _ _ _); case mez as [mz ez].
  apply binary_round_aux_equiv.
Qed.

Lemma binary_normalize_equiv m e szero :
  SpecFloat.binary_normalize 53 1024 m e szero
  = B2SF (binary_normalize 53 1024 prec_pos prec_max mode_NE m e szero).
Proof.
  case m as [ | p | p].
  - now simpl.
  - simpl; rewrite B2SF_SF2B; apply binary_round_equiv.
  - simpl; rewrite B2SF_SF2B; apply binary_round_equiv.
Qed.

Lemma add_equiv (x y : B64) : f_add (B2SF x) (B2SF y) = B2SF (Bplus mode_NE x y).
Proof.
  case x as [sx|sx| |sx mx ex Bx]; case y as [sy|sy| |sy my ey By];
    [now (trivial || simpl; case Bool.eqb).. | ].
  apply binary_normalize_equiv.
Qed.

Lemma sub_equiv (x y : B64) : f_sub (B2SF x) (B2SF y) = B2SF (Bminus mode_NE x y).
Proof.
  case x as [sx|sx| |sx mx ex Bx]; case y as [sy|sy| |sy my ey By];
    [now (trivial || simpl; case Bool.eqb).. | ].
  unfold f_sub. simpl. unfold Zminus. rewrite <- cond_Zopp_negb.
  apply binary_normalize_equiv.
Qed.

Lemma mul_equiv (x y : B64) : f_mul (B2SF x) (B2SF y) = B2SF (Bmult mode_NE x y).
Proof.
  case x as [sx|sx| |sx mx ex Bx]; case y as [sy|sy| |sy my ey By]; [now trivial.. | ].
  simpl. rewrite B2SF_SF2B. apply binary_round_aux_equiv.
Qed.

Lemma div_equiv (x y : B64) : f_div (B2SF x) (B2SF y) = B2SF (Bdiv mode_NE x y).
Proof.
  case x as [sx|sx| |sx mx ex Bx]; case y as [sy|sy| |sy my ey By];
    [now (trivial || simpl; case Bool.eqb).. | ].
  unfold f_div. simpl. rewrite B2SF_SF2B.
  set (melz := SFdiv_core_binary _ _ _ _ _ _).
  case melz as [[mz ez] lz].
  apply binary_round_aux_equiv.
Qed.

(** ** our reading of the format and Flocq's *)
Lemma digits2_pos_bounds p :
  (2 ^ (Zpos (digits2_pos p) - 1) <= Zpos p < 2 ^ Zpos (digits2_pos p))%Z.
Proof.
  rewrite Digits.Zpos_digits2_pos.
  pose proof (Digits.Zdigits_correct radix2 (Zpos p)) as H.
  rewrite Z.abs_eq in H by lia. exact H.
Qed.

Lemma bounded_iff p k prec emax : (0 < prec)%Z -> (prec < emax)%Z ->
  SpecFloat.bounded prec emax p k = true <->
  (2 ^ (prec - 1) <= Zpos p < 2 ^ prec /\ 3 - emax - prec <= k <= emax - prec)%Z \/
  (Zpos p < 2 ^ (prec - 1) /\ k = 3 - emax - prec)%Z.
Proof.
  intros Hp He.
  unfold SpecFloat.bounded, canonical_mantissa, SpecFloat.fexp, SpecFloat.emin.
  rewrite andb_true_iff, Z.leb_le, <- Zeq_is_eq_bool.
  pose proof (digits2_pos_bounds p) as [Hl Hu].
  set (d := Zpos (digits2_pos p)) in *.
  assert (Hd : (0 < d)%Z) by (unfold d; lia).
  split.
  - intros [H1 H2]. destruct (Z.lt_ge_cases (d + k - prec) (3 - emax - prec)) as [L|L].
    + right. rewrite Z.max_r in H1 by lia. split; [|lia].
      apply Z.lt_le_trans with (1 := Hu). apply Z.pow_le_mono_r; lia.
    + rewrite Z.max_l in H1 by lia. assert (d = prec) by lia. left.
      rewrite H in Hl, Hu. split; [lia|]. lia.
  - intros [[[A B] [C D]]|[A B]].
    + assert (d = prec).
      { destruct (Z.lt_trichotomy d prec) as [L|[L|L]]; [|assumption|].
        - assert (2 ^ d <= 2 ^ (prec - 1))%Z by (apply Z.pow_le_mono_r; lia). lia.
        - assert (2 ^ prec <= 2 ^ (d - 1))%Z by (apply Z.pow_le_mono_r; lia). lia. }
      rewrite Z.max_l; lia.
    + assert (d < prec)%Z.
      { destruct (Z.lt_ge_cases d prec) as [L|L]; [assumption|].
        assert (2 ^ (prec - 1) <= 2 ^ (d - 1))%Z by (apply Z.pow_le_mono_r; lia). lia. }
      rewrite Z.max_r; lia.
Qed.

Lemma is_f64_valid f : is_f64 f <-> valid_binary 53 1024 f = true.
Proof.
  destruct f as [s|s| |s p k]; simpl; try tauto.
  rewrite (bounded_iff p k 53 1024) by lia. reflexivity.
Qed.

Lemma is_f32_valid f : is_f32 f <-> valid_binary 24 128 f = true.
Proof.
  destruct f as [s|s| |s p k]; simpl; try tauto.
  rewrite (bounded_iff p k 24 128) by lia. reflexivity.
Qed.

Definition toB (f : f64) (H : is_f64 f) : B64 := SF2B f (proj1 (is_f64_valid f) H).
Lemma toB_SF f H : B2SF (toB f H) = f.
Proof. unfold toB. apply B2SF_SF2B. Qed.

Lemma is_f64_B2SF (x : B64) : is_f64 (B2SF x).
Proof. apply is_f64_valid. apply valid_binary_B2SF. Qed.

Lemma Q2R_Z z : Q2R (inject_Z z) = IZR z.
Proof. unfold Q2R, inject_Z. simpl. field. Qed.

Lemma fR_SF f : fR f = SF2R radix2 f.
Proof.
  destruct f as [s|s| |s p k]; unfold fR; simpl; try reflexivity; try (unfold Q2R; simpl; field).
  unfold F2R. simpl Fnum. simpl Fexp.
  replace (cond_Zopp s (Zpos p)) with (if s then Zneg p else Zpos p) by (destruct s; reflexivity).
  set (z := if s then Zneg p else Zpos p).
  destruct k as [|k|k].
  - rewrite Q2R_Z. simpl bpow. change (2 ^ 0)%Z with 1%Z. rewrite Z.mul_1_r. ring.
  - rewrite Q2R_Z, mult_IZR. f_equal.
  - unfold Q2R. simpl Qnum. simpl Qden. f_equal.
    rewrite Pos2Z.inj_pow. change (bpow radix2 (Z.neg k)) with (/ IZR (Z.pow_pos 2 k)).
    reflexivity.
Qed.

Lemma fR_B2R (x : B64) : fR (B2SF x) = B2R x.
Proof. rewrite fR_SF. apply SF2R_B2SF. Qed.

Lemma finite_B (x : B64) : f_finite (B2SF x) <-> is_finite x = true.
Proof. destruct x; simpl; split; auto; discriminate. Qed.

(** ** the threshold *)
Notation maxf := (bpow radix2 1024 - bpow radix2 971).
Lemma overflow64_eq : overflow64 = bpow radix2 1024 - bpow radix2 970.
Proof. unfold overflow64. rewrite minus_IZR, <- !(IZR_Zpower radix2) by lia. reflexivity. Qed.

Lemma b971 : bpow radix2 971 = 2 * bpow radix2 970.
Proof. change 971%Z with (1 + 970)%Z. rewrite bpow_plus. reflexivity. Qed.

Notation rnd r := (round radix2 fexp64 ZnearestE r).

Lemma max_mant : IZR 9007199254740991 * bpow radix2 971 = maxf.
Proof.
  change 1024%Z with (53 + 971)%Z at 1. rewrite bpow_plus.
  replace (bpow radix2 53) with (IZR 9007199254740992) by reflexivity. lra.
Qed.

Lemma max_format : generic_format radix2 fexp64 maxf.
Proof.
  assert (Hb : SpecFloat.bounded 53 1024 (Z.to_pos (2 ^ 53 - 1)) 971 = true) by reflexivity.
  pose proof (generic_format_B2R 53 1024 (B754_finite false _ _ Hb)) as H.
  simpl B2R in H. unfold F2R in H. simpl Fexp in H. simpl Fnum in H.
  replace maxf with (IZR 9007199254740991 * bpow radix2 971); [exact H|].
  apply max_mant.
Qed.

Lemma max_canonical : maxf = F2R (Float radix2 9007199254740991 971) /\
  canonical radix2 fexp64 (Float radix2 9007199254740991 971).
Proof.
  split.
  - unfold F2R. simpl Fexp. simpl Fnum. symmetry. apply max_mant.
  - apply (canonical_canonical_mantissa 53 1024 false 9007199254740991 971). reflexivity.
Qed.

Lemma b1024_format : generic_format radix2 fexp64 (bpow radix2 1024).
Proof. apply generic_format_bpow. vm_compute; discriminate. Qed.

Lemma format_lt_max v : generic_format radix2 fexp64 v -> v < bpow radix2 1024 -> v <= maxf.
Proof.
  intros Hv Hl.
  apply Rle_trans with (pred radix2 fexp64 (bpow radix2 1024)).
  - apply pred_ge_gt; auto with typeclass_instances. apply b1024_format.
  - rewrite pred_bpow. apply Rle_refl.
Qed.

Lemma rnd_lt r : Rabs r < overflow64 -> Rabs (rnd r) < bpow radix2 1024.
Proof.
  rewrite overflow64_eq. intros Hr.
  rewrite <- round_NE_abs by auto with typeclass_instances.
  set (a := Rabs r) in *. assert (0 <= a) by apply Rabs_pos.
  pose proof b971 as E. pose proof (bpow_gt_0 radix2 970) as P.
  destruct (Rle_lt_dec a maxf) as [L|L].
  - apply Rle_lt_trans with (rnd maxf).
    + apply round_le; auto with typeclass_instances.
    + rewrite round_generic; auto with typeclass_instances; [lra|apply max_format].
  - destruct (Rlt_le_dec (rnd a) (bpow radix2 1024)) as [C|C]; [assumption|exfalso].
    pose proof (round_NE_pt radix2 fexp64 a) as [[_ N] _].
    specialize (N maxf max_format).
    rewrite (Rabs_pos_eq (rnd a - a)) in N by lra.
    rewrite (Rabs_left1 (maxf - a)) in N by lra. lra.
Qed.

Lemma rnd_ge r : overflow64 <= Rabs r -> bpow radix2 1024 <= Rabs (rnd r).
Proof.
  rewrite overflow64_eq. intros Hr.
  rewrite <- round_NE_abs by auto with typeclass_instances.
  set (a := Rabs r) in *.
  pose proof b971 as E. pose proof (bpow_gt_0 radix2 970) as P.
  destruct (Rlt_le_dec (rnd a) (bpow radix2 1024)) as [C|C]; [exfalso|assumption].
  pose proof (round_NE_pt radix2 fexp64 a) as [[F N] T].
  pose proof (format_lt_max _ F C) as M.
  destruct (Rle_lt_dec (bpow radix2 1024) a) as [L|L].
  { specialize (N _ b1024_format).
    rewrite (Rabs_left1 (bpow radix2 1024 - a)), (Rabs_left1 (rnd a - a)) in N by lra. lra. }
  pose proof (N _ b1024_format) as N'.
  rewrite (Rabs_pos_eq (bpow radix2 1024 - a)), (Rabs_left1 (rnd a - a)) in N' by lra.
  assert (Ha : a = bpow radix2 1024 - bpow radix2 970) by lra.
  assert (Hv : rnd a = maxf) by lra.
  destruct T as [[g [G1 [G2 G3]]]|U].
  - rewrite Hv in G1. destruct max_canonical as [M1 M2].
    rewrite M1 in G1. pose proof (canonical_unique radix2 fexp64 _ _ M2 G2 G1) as G4.
    rewrite <- G4 in G3. discriminate G3.
  - specialize (U (bpow radix2 1024)). rewrite Hv in U.
    assert (bpow radix2 1024 = maxf); [|lra]. apply U.
    split; [apply b1024_format|]. intros g Hg. specialize (N g Hg).
    rewrite (Rabs_left1 (rnd a - a)) in N by lra.
    rewrite (Rabs_pos_eq (bpow radix2 1024 - a)) by lra. lra.
Qed.

Lemma even_of_NE (x : B64) r : B2R x = rnd r -> is_finite x = true ->
  NE_prop radix2 fexp64 r (rnd r) -> f_even (B2SF x).
Proof.
  intros Hx Hf [g [G1 [G2 G3]]].
  destruct x as [s|s| |s p k Hb]; simpl; try exact I.
  simpl in Hx. rewrite <- Hx in G1.
  assert (C : canonical radix2 fexp64 (Float radix2 (cond_Zopp s (Zpos p)) k)).
  { apply canonical_canonical_mantissa. now apply (andb_prop _ _ Hb). }
  pose proof (canonical_unique radix2 fexp64 _ _ C G2 G1) as G4. rewrite <- G4 in G3. simpl in G3.
  destruct s; exact G3.
Qed.

(** main bridge: Flocq's postcondition gives [rounds_to] *)
Lemma rounds_to_intro r (x : B64) :
  (Rabs (rnd r) < bpow radix2 1024 -> B2R x = rnd r /\ is_finite x = true) ->
  (bpow radix2 1024 <= Rabs (rnd r) -> B2SF x = S754_infinity (Rlt_bool r 0)) ->
  rounds_to r (B2SF x).
Proof.
  intros H1 H2. split; [apply is_f64_B2SF|]. split; [|split].
  - intros Hr. destruct (H1 (rnd_lt r Hr)) as [Hv Hf]. split; [now apply finite_B|].
    intros g Hg Hgf.
    assert (Fg : generic_format radix2 fexp64 (fR g)).
    { rewrite <- (toB_SF g Hg), fR_B2R. apply generic_format_B2R. }
    pose proof (round_NE_pt radix2 fexp64 r) as [[_ N] T].
    rewrite fR_B2R, Hv. split; [apply N, Fg|]. intros Heq.
    destruct T as [T|T].
    + right. apply (even_of_NE x r); assumption.
    + left. symmetry. apply T. split; [assumption|]. intros h Hh. rewrite <- Heq. apply N, Hh.
  - intros Hr. rewrite H2.
    + rewrite Rlt_bool_false; [reflexivity|]. pose proof overflow64_eq.
      assert (bpow radix2 970 < bpow radix2 1024) by (apply bpow_lt; lia). lra.
    + apply rnd_ge. apply Rle_trans with (1 := Hr). apply Rle_abs.
  - intros Hr.
    assert (0 < overflow64).
    { rewrite overflow64_eq.
      assert (bpow radix2 970 < bpow radix2 1024) by (apply bpow_lt; lia). lra. }
    rewrite H2.
    + rewrite Rlt_bool_true; [reflexivity|]. lra.
    + apply rnd_ge. rewrite Rabs_left1; lra.
Qed.

Lemma rlt_cases r (b := bpow radix2 1024) (A B : Prop) :
  (if Rlt_bool (Rabs r) b then A else B) ->
  (Rabs r < b -> A) /\ (b <= Rabs r -> B).
Proof.
  destruct (Rlt_bool_spec (Rabs r) b); intros; split; intros; auto; lra.
Qed.

Lemma lt1024 r : Rabs (rnd r) < bpow radix2 1024 \/ bpow radix2 1024 <= Rabs (rnd r).
Proof. destruct (Rlt_le_dec (Rabs (rnd r)) (bpow radix2 1024)); auto. Qed.

(** overflowing results are nonzero, and rounding keeps the sign *)
Lemma rnd_0 : rnd 0 = 0.
Proof. apply round_0; auto with typeclass_instances. Qed.

Lemma big_nonzero r : bpow radix2 1024 <= Rabs (rnd r) -> r <> 0.
Proof.
  intros H E. subst r. rewrite rnd_0, Rabs_R0 in H.
  pose proof (bpow_gt_0 radix2 1024). lra.
Qed.

Lemma sgn_B (x : B64) : is_finite x = true -> B2R x <> 0 ->
  Bsign x = Rlt_bool (B2R x) 0.
Proof.
  destruct x as [s|s| |s p k Hb]; simpl; try discriminate; intros _ H.
  - now elim H.
  - destruct s.
    + rewrite Rlt_bool_true; [reflexivity|]. apply F2R_lt_0. reflexivity.
    + rewrite Rlt_bool_false; [reflexivity|]. apply F2R_ge_0. discriminate.
Qed.

Theorem f_add_rounds a b : is_f64 a -> is_f64 b -> f_finite a -> f_finite b ->
  rounds_to (fR a + fR b) (f_add a b).
Proof.
  intros Ha Hb Fa Fb. rewrite <- (toB_SF a Ha), <- (toB_SF b Hb) in *.
  set (x := toB a Ha) in *. set (y := toB b Hb) in *. clearbody x y. clear Ha Hb.
  apply finite_B in Fa, Fb. rewrite !fR_B2R, add_equiv.
  pose proof (Bplus_correct 53 1024 _ _ mode_NE x y Fa Fb) as H.
  apply rlt_cases in H. destruct H as [H1 H2]. apply rounds_to_intro.
  - intros L. destruct (H1 L) as [A [B _]]. auto.
  - intros L. destruct (H2 L) as [A B]. rewrite A. unfold binary_overflow. simpl.
    pose proof (big_nonzero _ L) as N. f_equal.
    destruct (Req_dec (B2R x) 0) as [Zx|Zx].
    + exfalso. rewrite Zx, Rplus_0_l in L.
      rewrite round_generic in L by (auto with typeclass_instances; apply generic_format_B2R).
      pose proof (abs_B2R_lt_emax 53 1024 y). lra.
    + destruct (Req_dec (B2R y) 0) as [Zy|Zy].
      * exfalso. rewrite Zy, Rplus_0_r in L.
        rewrite round_generic in L by (auto with typeclass_instances; apply generic_format_B2R).
        pose proof (abs_B2R_lt_emax 53 1024 x). lra.
      * rewrite (sgn_B x Fa Zx). rewrite (sgn_B x Fa Zx), (sgn_B y Fb Zy) in B. revert B.
        destruct (Rlt_bool_spec (B2R x) 0), (Rlt_bool_spec (B2R y) 0); try discriminate; intros _.
        -- rewrite Rlt_bool_true; [reflexivity|lra].
        -- rewrite Rlt_bool_false; [reflexivity|lra].
Qed.

Lemma f_neg_is (b : f64) : is_f64 b -> is_f64 (f_neg b).
Proof. destruct b; exact (fun H => H). Qed.
Lemma f_neg_finite b : f_finite b -> f_finite (f_neg b).
Proof. destruct b; exact (fun H => H). Qed.
Lemma fR_neg b : fR (f_neg b) = - fR b.
Proof.
  rewrite !fR_SF. destruct b as [s|s| |s p k]; simpl; try ring.
  rewrite <- F2R_Zopp. f_equal. f_equal. destruct s; reflexivity.
Qed.

Lemma f_sub_is_add_neg (a b : f64) : f_sub a b = f_add a (f_neg b).
Proof.
  destruct a as [s|s| |s p k], b as [t|t| |t q l]; try reflexivity; try (destruct s, t; reflexivity).
Qed.

Theorem f_sub_rounds a b : is_f64 a -> is_f64 b -> f_finite a -> f_finite b ->
  rounds_to (fR a - fR b) (f_sub a b).
Proof.
  intros Ha Hb Fa Fb. rewrite f_sub_is_add_neg.
  replace (fR a - fR b) with (fR a + fR (f_neg b)) by (rewrite fR_neg; ring).
  apply f_add_rounds; auto using f_neg_is, f_neg_finite.
Qed.

Lemma xor_sign r s : r <> 0 -> s <> 0 ->
  xorb (Rlt_bool r 0) (Rlt_bool s 0) = Rlt_bool (r * s) 0.
Proof.
  intros. destruct (Rlt_bool_spec r 0), (Rlt_bool_spec s 0); simpl; symmetry;
    (apply Rlt_bool_true + apply Rlt_bool_false); nra.
Qed.

Theorem f_mul_rounds a b : is_f64 a -> is_f64 b -> f_finite a -> f_finite b ->
  rounds_to (fR a * fR b) (f_mul a b).
Proof.
  intros Ha Hb Fa Fb. rewrite <- (toB_SF a Ha), <- (toB_SF b Hb) in *.
  set (x := toB a Ha) in *. set (y := toB b Hb) in *. clearbody x y. clear Ha Hb.
  apply finite_B in Fa, Fb. rewrite !fR_B2R, mul_equiv.
  pose proof (Bmult_correct 53 1024 _ _ mode_NE x y) as H.
  apply rlt_cases in H. destruct H as [H1 H2]. apply rounds_to_intro.
  - intros L. destruct (H1 L) as [A [B _]]. rewrite Fa, Fb in B. auto.
  - intros L. rewrite (H2 L). unfold binary_overflow. simpl.
    pose proof (big_nonzero _ L) as N. f_equal.
    assert (Zx : B2R x <> 0) by (intros E; apply N; rewrite E; ring).
    assert (Zy : B2R y <> 0) by (intros E; apply N; rewrite E; ring).
    rewrite (sgn_B x Fa Zx), (sgn_B y Fb Zy). apply xor_sign; assumption.
Qed.

Theorem f_div_rounds a b : is_f64 a -> is_f64 b -> f_finite a -> f_finite b -> fR b <> 0 ->
  rounds_to (fR a / fR b) (f_div a b).
Proof.
  intros Ha Hb Fa Fb. rewrite <- (toB_SF a Ha), <- (toB_SF b Hb) in *.
  set (x := toB a Ha) in *. set (y := toB b Hb) in *. clearbody x y. clear Ha Hb.
  apply finite_B in Fa, Fb. rewrite !fR_B2R, div_equiv. intros Zy.
  pose proof (Bdiv_correct 53 1024 _ _ mode_NE x y Zy) as H.
  apply rlt_cases in H. destruct H as [H1 H2]. apply rounds_to_intro.
  - intros L. destruct (H1 L) as [A [B _]]. rewrite Fa in B. auto.
  - intros L. rewrite (H2 L). unfold binary_overflow. simpl.
    pose proof (big_nonzero _ L) as N. f_equal.
    assert (Zx : B2R x <> 0) by (intros E; apply N; rewrite E; unfold Rdiv; ring).
    rewrite (sgn_B x Fa Zx), (sgn_B y Fb Zy).
    unfold Rdiv. rewrite <- (xor_sign _ (/ B2R y)) by auto using Rinv_neq_0_compat. f_equal.
    destruct (Rlt_bool_spec (B2R y) 0); symmetry.
    + apply Rlt_bool_true. now apply Rinv_lt_0_compat.
    + apply Rlt_bool_false. left. apply Rinv_0_lt_compat. lra.
Qed.

Lemma normalize_rounds z k s :
  rounds_to (F2R (Float radix2 z k)) (SpecFloat.binary_normalize 53 1024 z k s).
Proof.
  rewrite binary_normalize_equiv.
  pose proof (binary_normalize_correct 53 1024 _ _ mode_NE z k s) as H. cbv zeta in H.
  apply rlt_cases in H. destruct H as [H1 H2]. apply rounds_to_intro.
  - intros L. destruct (H1 L) as [A [B _]]. auto.
  - intros L. rewrite (H2 L). reflexivity.
Qed.

Theorem f_of_Z_rounds z : rounds_to (IZR z) (f_of_Z z).
Proof.
  replace (IZR z) with (F2R (Float radix2 z 0)) by (unfold F2R; simpl; ring).
  apply normalize_rounds.
Qed.

(** a float represents itself *)
Lemma rounds_to_self f : is_f64 f -> f_finite f -> rounds_to (fR f) f.
Proof.
  intros H F. rewrite <- (toB_SF f H) in *. set (x := toB f H) in *. clearbody x.
  apply finite_B in F. rewrite fR_B2R. apply rounds_to_intro.
  - rewrite round_generic by (auto with typeclass_instances; apply generic_format_B2R). auto.
  - rewrite round_generic by (auto with typeclass_instances; apply generic_format_B2R).
    pose proof (abs_B2R_lt_emax 53 1024 x). lra.
Qed.

Lemma rounds_to_ext r r' f : r = r' -> rounds_to r f -> rounds_to r' f.
Proof. intros ->. exact (fun H => H). Qed.

(** representable results are exact *)
Lemma rounds_to_exact r f g : rounds_to r f -> is_f64 g -> f_finite g -> fR g = r ->
  f_finite f /\ fR f = r.
Proof.
  intros [H1 [H2 _]] Hg Fg E.
  assert (L : Rabs r < overflow64).
  { rewrite overflow64_eq. rewrite <- E, <- (toB_SF g Hg), fR_B2R.
    pose proof (abs_B2R_le_emax_minus_prec 53 1024 _ (toB g Hg)).
    change (1024 - 53)%Z with 971%Z in *. pose proof b971. pose proof (bpow_gt_0 radix2 970). lra. }
  destruct (H2 L) as [A B]. split; [assumption|].
  destruct (B g Hg Fg) as [B1 _]. rewrite E in B1.
  replace (r - r) with 0 in B1 by ring. rewrite Rabs_R0 in B1.
  pose proof (Rabs_pos (fR f - r)). assert (Rabs (fR f - r) = 0) by lra.
  destruct (Req_dec (fR f - r) 0); [lra|]. now apply Rabs_no_R0 in H3.
Qed.
