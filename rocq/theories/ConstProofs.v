(** * ConstProofs: the stored pi and e are the f64 nearest to the true constants *)
From Coq Require Import ZArith QArith List Bool Lia Lra.
From Coq Require Import Reals Qreals Machin.
From Coq Require Import Floats.SpecFloat.
From Verif Require Import Base Float Rational SmartNum Ast Spec SpecF.
From Verif Require Import FloatProofs.
Open Scope R_scope.

(** rational partial sums *)
Fixpoint qsum (f : nat -> Q) (n : nat) : Q :=
  match n with O => f O | S k => Qred (qsum f k + f (S k))%Q end.

Lemma qsum_R f g n : (forall k, Q2R (f k) = g k) -> Q2R (qsum f n) = sum_f_R0 g n.
Proof.
  intros H. induction n; cbn [qsum sum_f_R0]; [apply H|].
  rewrite (Qeq_eqR _ _ (Qred_correct _)), Q2R_plus, IHn, H. reflexivity.
Qed.

Definition qsgn (n : nat) : Q := if Nat.even n then 1%Q else (-1)%Q.
Lemma qsgn_R n : Q2R (qsgn n) = (-1) ^ n.
Proof.
  assert (forall n, Q2R (qsgn n) = (-1) ^ n /\ Q2R (qsgn (S n)) = (-1) ^ (S n)) as H.
  { induction n0 as [|k [A B]].
    - unfold qsgn, Q2R. simpl. split; lra.
    - split; [exact B|]. change (qsgn (S (S k))) with (qsgn k). rewrite A. simpl. lra. }
  apply H.
Qed.

Definition inv_Q (p : positive) : Q := 1 # p.
Lemma inv_Q_R p : Q2R (inv_Q p) = / IZR (Zpos p).
Proof. unfold Q2R, inv_Q. simpl. ring. Qed.

Definition ratan_Q (b : positive) (n : nat) : Q :=
  inv_Q (Pos.pow b (Pos.of_nat (2 * n + 1)) * Pos.of_nat (2 * n + 1)).

Lemma ratan_Q_R b n : Q2R (ratan_Q b n) = Ratan_seq (/ IZR (Zpos b)) n.
Proof.
  unfold ratan_Q, Ratan_seq. rewrite inv_Q_R.
  assert (E : Zpos (Pos.of_nat (2 * n + 1)) = Z.of_nat (2 * n + 1)) by lia.
  rewrite Pos2Z.inj_mul, Pos2Z.inj_pow, E, mult_IZR, <- INR_IZR_INZ.
  rewrite <- pow_IZR. rewrite pow_inv. unfold Rdiv.
  rewrite Rinv_mult. reflexivity.
Qed.

Definition pi_term (n : nat) : Q := (qsgn n * (2 * ratan_Q 3 n + ratan_Q 7 n))%Q.
Lemma pi_term_R n : Q2R (pi_term n) = tg_alt PI_2_3_7_tg n.
Proof.
  unfold pi_term, tg_alt, PI_2_3_7_tg.
  rewrite Q2R_mult, Q2R_plus, Q2R_mult, !ratan_Q_R, qsgn_R.
  replace (Q2R 2) with 2 by (unfold Q2R; simpl; lra). reflexivity.
Qed.

Lemma PI_bounds N : Q2R (4 * qsum pi_term (S (2 * N))) <= PI <= Q2R (4 * qsum pi_term (2 * N)).
Proof.
  rewrite !Q2R_mult, !(qsum_R _ _ _ pi_term_R).
  replace (Q2R 4) with 4 by (unfold Q2R; simpl; lra).
  pose proof (PI_2_3_7_ineq N). lra.
Qed.

(** exp(-1) is an alternating series *)
Fixpoint pfact (n : nat) : positive :=
  match n with O => 1%positive | S k => (Pos.of_nat (S k) * pfact k)%positive end.
Lemma pfact_fact n : Zpos (pfact n) = Z.of_nat (fact n).
Proof.
  induction n; [reflexivity|]. cbn [pfact]. rewrite Pos2Z.inj_mul, IHn.
  change (fact (S n)) with (S n * fact n)%nat. rewrite Nat2Z.inj_mul. f_equal. lia.
Qed.

Definition em_term (n : nat) : Q := (qsgn n * inv_Q (pfact n))%Q.
Lemma em_term_R n : Q2R (em_term n) = tg_alt (fun k => / INR (fact k)) n.
Proof.
  unfold em_term, tg_alt. rewrite Q2R_mult, qsgn_R, inv_Q_R. f_equal. f_equal.
  rewrite INR_IZR_INZ. f_equal. apply pfact_fact.
Qed.

Lemma exp_m1_bounds N :
  Q2R (qsum em_term (S (2 * N))) <= exp (-1) <= Q2R (qsum em_term (2 * N)).
Proof.
  rewrite !(qsum_R _ _ _ em_term_R).
  apply alternated_series_ineq.
  - intros n. apply Rinv_le_contravar; [apply lt_INR_0, lt_O_fact|].
    apply le_INR. simpl. lia.
  - intros eps He. destruct (cv_speed_pow_fact 1 eps He) as [N0 H]. exists N0. intros n Hn.
    specialize (H n Hn). rewrite pow1 in H. unfold Rdiv in H. now rewrite Rmult_1_l in H.
  - unfold exp. destruct (exist_exp (-1)) as [l Hl]. simpl.
    intros eps He. destruct (Hl eps He) as [N0 H]. exists N0. intros n Hn.
    specialize (H n Hn). erewrite sum_eq; [exact H|]. intros i _. unfold tg_alt. ring.
Qed.

Lemma exp_1_bounds N : 0 < Q2R (qsum em_term (S (2 * N))) ->
  / Q2R (qsum em_term (2 * N)) <= exp 1 <= / Q2R (qsum em_term (S (2 * N))).
Proof.
  intros P. destruct (exp_m1_bounds N) as [A B].
  replace (exp 1) with (/ exp (-1)).
  - split; apply Rinv_le_contravar; try assumption. apply exp_pos.
  - rewrite <- exp_Ropp. f_equal. ring.
Qed.

(** a float between 2 and 4 that is within half a unit is the correctly rounded result *)
Lemma nearest_2_4 r p : (2 ^ 52 < Zpos p < 2 ^ 53)%Z -> 2 < r -> r < 4 ->
  Rabs (IZR (Zpos p) * / 2251799813685248 - r) < / 2 * / 2251799813685248 ->
  rounds_to r (S754_finite false p (-51)).
Proof.
  intros Hp R1 R2 H.
  assert (Ef : fR (S754_finite false p (-51)) = IZR (Zpos p) * / 2251799813685248).
  { unfold fR, f_val, Q2R. cbn [Qnum Qden].
    change (2 ^ 51)%positive with 2251799813685248%positive. reflexivity. }
  assert (O : 4 < overflow64).
  { unfold overflow64. apply (IZR_lt 4). vm_compute. reflexivity. }
  split; [left; simpl; lia|]. split; [|split; intros; exfalso; lra].
  intros _. split; [exact I|]. intros g Ig Fg. rewrite Ef.
  destruct (Req_dec (fR g) (IZR (Zpos p) * / 2251799813685248)) as [E|N].
  { rewrite E. split; [lra|]. intros _. left. reflexivity. }
  enough (K : / 2251799813685248 <= Rabs (fR g - IZR (Zpos p) * / 2251799813685248)).
  { assert (L : Rabs (IZR (Zpos p) * / 2251799813685248 - r) < Rabs (fR g - r)).
    { revert H K. unfold Rabs. repeat destruct Rcase_abs; intros; lra. }
    split; [lra|]. intros; exfalso; lra. }
  assert (P2 : IZR (Zpos p) * / 2251799813685248 >= 2 + / 2251799813685248).
  { assert (4503599627370497 <= IZR (Zpos p)) by (apply IZR_le; change (2 ^ 52)%Z with 4503599627370496%Z in Hp; lia).
    lra. }
  destruct g as [s|s| |s q k]; try (exfalso; exact Fg).
  - replace (fR (S754_zero s)) with 0 by (unfold fR, f_val, Q2R; simpl; lra).
    rewrite Rabs_left by lra. lra.
  - destruct (Z.le_gt_cases (-51) k) as [Hk|Hk].
    + (* a multiple of 2^-51 *)
      set (z := ((if s then Zneg q else Zpos q) * 2 ^ (k + 51))%Z).
      assert (Eg : fR (S754_finite s q k) = IZR z * / 2251799813685248).
      { unfold fR, f_val, z. change 2251799813685248 with (IZR (2 ^ 51)).
        set (w := if s then Zneg q else Zpos q).
        assert (T : forall a b : Z, (0 <= a)%Z -> (0 <= b)%Z -> IZR (2 ^ (a + b)) = IZR (2 ^ a) * IZR (2 ^ b)).
        { intros. now rewrite Z.pow_add_r, mult_IZR. }
        destruct k as [|k|k].
        - rewrite Q2R_Z, !mult_IZR. change (0 + 51)%Z with 51%Z.
          change (2 ^ 0)%Z with 1%Z. field. apply not_0_IZR. discriminate.
        - rewrite Q2R_Z, !mult_IZR, T by lia. field. apply not_0_IZR. discriminate.
        - unfold Q2R. cbn [Qnum Qden]. rewrite mult_IZR, Pos2Z.inj_pow.
          assert (X : IZR (2 ^ 51) = IZR (2 ^ (Z.neg k + 51)) * IZR (2 ^ Zpos k)).
          { rewrite <- T by lia. f_equal. f_equal. lia. }
          rewrite X.
          assert (IZR (2 ^ (Z.neg k + 51)) <> 0) by (apply not_0_IZR, Z.pow_nonzero; lia).
          assert (IZR (2 ^ Zpos k) <> 0) by (apply not_0_IZR, Z.pow_nonzero; lia).
          field. auto. }
      rewrite Eg in *. clearbody z.
      assert (Nz : (z <> Zpos p)%Z) by (intros ->; now apply N).
      replace (IZR z * / 2251799813685248 - IZR (Zpos p) * / 2251799813685248)
        with (IZR (z - Zpos p) * / 2251799813685248) by (rewrite minus_IZR; ring).
      rewrite Rabs_mult, (Rabs_pos_eq (/ _)) by lra. rewrite <- abs_IZR.
      assert (1 <= IZR (Z.abs (z - Zpos p))) by (apply (IZR_le 1); lia). lra.
    + (* smaller exponent: below 2 - 2^-51 in absolute value *)
      assert (Hq : (Zpos q < 2 ^ 53)%Z) by (simpl in Ig; lia).
      assert (G : Rabs (fR (S754_finite s q k)) <= 2).
      { assert (Ek : k = Zneg (Z.to_pos (- k))) by lia. rewrite Ek.
        set (j := Z.to_pos (- k)) in *.
        unfold fR, f_val, Q2R. cbn [Qnum Qden].
        rewrite Rabs_mult, <- abs_IZR.
        replace (Z.abs (if s then Zneg q else Zpos q)) with (Zpos q) by (destruct s; reflexivity).
        rewrite Rabs_pos_eq by (left; apply Rinv_0_lt_compat, (IZR_lt 0); lia).
        rewrite Pos2Z.inj_pow.
        assert (J : (2 ^ 52 <= 2 ^ Zpos j)%Z) by (apply Z.pow_le_mono_r; lia).
        apply IZR_le in J. change (IZR (2 ^ 52)) with 4503599627370496 in J.
        assert (Q1 : IZR (Zpos q) <= 9007199254740991) by (apply IZR_le; change (2 ^ 53)%Z with 9007199254740992%Z in Hq; lia).
        assert (Q0 : 0 < IZR (Zpos q)) by (apply (IZR_lt 0); lia).
        apply Rle_trans with (9007199254740991 * / 4503599627370496); [|lra].
        apply Rmult_le_compat; try lra.
        - left. apply Rinv_0_lt_compat. lra.
        - apply Rinv_le_contravar; lra. }
      revert G. unfold Rabs. repeat destruct Rcase_abs; intros; lra.
Qed.

Lemma Qle_b_R a b : Qle_bool a b = true -> Q2R a <= Q2R b.
Proof. intros H. apply Qle_Rle. now apply Qle_bool_iff. Qed.

Definition pi_lo : Q := 314159265358979323 # 100000000000000000.
Definition pi_hi : Q := 314159265358979324 # 100000000000000000.
Lemma PI_dec : Q2R pi_lo <= PI <= Q2R pi_hi.
Proof.
  destruct (PI_bounds 10) as [A B]. split.
  - apply Rle_trans with (2 := A). apply Qle_b_R. vm_compute. reflexivity.
  - apply Rle_trans with (1 := B). apply Qle_b_R. vm_compute. reflexivity.
Qed.

Definition em_lo : Q := 36787944117144232159 # 100000000000000000000.
Definition em_hi : Q := 36787944117144232160 # 100000000000000000000.
Lemma exp_m1_dec : Q2R em_lo <= exp (-1) <= Q2R em_hi.
Proof.
  destruct (exp_m1_bounds 11) as [A B]. split.
  - apply Rle_trans with (2 := A). apply Qle_b_R. vm_compute. reflexivity.
  - apply Rle_trans with (1 := B). apply Qle_b_R. vm_compute. reflexivity.
Qed.

Lemma E_dec : 2718281828459045235 / 1000000000000000000 <= exp 1 <= 2718281828459045236 / 1000000000000000000.
Proof.
  destruct exp_m1_dec as [A B]. unfold em_lo, em_hi, Q2R in A, B. cbn [Qnum Qden] in A, B.
  pose proof (exp_pos (-1)) as P.
  assert (E : exp 1 * exp (-1) = 1).
  { rewrite <- exp_plus. replace (1 + -1) with 0 by ring. apply exp_0. }
  pose proof (exp_pos 1) as P1.
  split.
  - apply Rmult_le_reg_r with (exp (-1)); [assumption|]. lra.
  - apply Rmult_le_reg_r with (exp (-1)); [assumption|]. lra.
Qed.

Lemma rounds_E : rounds_to (exp 1) f_E.
Proof.
  destruct E_dec as [A B].
  apply nearest_2_4; [lia|lra|lra|].
  unfold Rabs. destruct Rcase_abs; lra.
Qed.

Lemma rounds_PI : rounds_to PI f_PI.
Proof.
  destruct PI_dec as [A B]. unfold pi_lo, pi_hi, Q2R in A, B. cbn [Qnum Qden] in A, B.
  apply nearest_2_4; [lia|lra|lra|].
  unfold Rabs. destruct Rcase_abs; lra.
Qed.
