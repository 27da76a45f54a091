(** * FloatNum: f64 facts lifted to numbers *)
From Coq Require Import ZArith QArith List Bool Lia Lra.
From Coq Require Import Reals Qreals.
From Coq Require Import Floats.SpecFloat.
From Flocq Require Import Core.Core.
From Flocq Require Import IEEE754.BinarySingleNaN.
From Verif Require Import Base Float Rational SmartNum Ast Spec SpecF.
From Verif Require Import BaseProofs RationalProofs NumProofs NumProofs2 FloatProofs.
Open Scope R_scope.

Lemma real_not_strict m : real_build m -> is_strict m = false.
Proof. intros [->| ->]; reflexivity. Qed.

Lemma trap_real m b r : real_build m -> trap_unless m b r = Ok r.
Proof. intros H. unfold trap_unless. now rewrite real_not_strict. Qed.

(** ** validity *)
Lemma valid_op2 (op : f64 -> f64 -> f64) (bop : binary_float 53 1024 -> binary_float 53 1024 -> binary_float 53 1024) :
  (forall x y, op (B2SF x) (B2SF y) = B2SF (bop x y)) ->
  forall a b, is_f64 a -> is_f64 b -> is_f64 (op a b).
Proof.
  intros H a b Ha Hb. rewrite <- (toB_SF a Ha), <- (toB_SF b Hb), H. apply is_f64_B2SF.
Qed.

Lemma f_add_is a b : is_f64 a -> is_f64 b -> is_f64 (f_add a b).
Proof. apply (valid_op2 f_add _ add_equiv). Qed.
Lemma f_sub_is a b : is_f64 a -> is_f64 b -> is_f64 (f_sub a b).
Proof. apply (valid_op2 f_sub _ sub_equiv). Qed.
Lemma f_mul_is a b : is_f64 a -> is_f64 b -> is_f64 (f_mul a b).
Proof. apply (valid_op2 f_mul _ mul_equiv). Qed.
Lemma f_div_is a b : is_f64 a -> is_f64 b -> is_f64 (f_div a b).
Proof. apply (valid_op2 f_div _ div_equiv). Qed.
Lemma f_of_Z_is z : is_f64 (f_of_Z z).
Proof. apply (f_of_Z_rounds z). Qed.
Lemma f_of_f32_is f : is_f32 f -> is_f64 (f_of_f32 f).
Proof.
  destruct f as [s|s| |s p k]; intros H; try exact I.
  unfold f_of_f32. apply (normalize_rounds (if s then Zneg p else Zpos p) k s).
Qed.

Lemma f32_exact f : is_f32 f -> f_finite f -> f_finite (f_of_f32 f) /\ fR (f_of_f32 f) = fR f.
Proof.
  destruct f as [s|s| |s p k]; intros H F; try (split; [exact F|reflexivity]).
  unfold f_of_f32.
  pose proof (normalize_rounds (if s then Zneg p else Zpos p) k s) as N.
  change (SpecFloat.binary_normalize prec64 emax64) with (SpecFloat.binary_normalize 53 1024).
  assert (E : F2R (Float radix2 (if s then Zneg p else Zpos p) k) = fR (S754_finite s p k)).
  { rewrite fR_SF. destruct s; reflexivity. }
  rewrite E in N.
  (* the shifted mantissa is a binary64 datum with the same value *)
  set (d := Z.of_nat (Pos.size_nat p)).
  assert (Hp : (2 ^ (d - 1) <= Zpos p < 2 ^ d)%Z).
  { pose proof (digits2_pos_bounds p) as B.
    assert (Hd : Zpos (digits2_pos p) = d).
    { unfold d. clear. induction p; simpl digits2_pos; simpl Pos.size_nat; try lia. }
    now rewrite Hd in B. }
  assert (Hd1 : (1 <= d)%Z) by (unfold d; destruct p; simpl; lia).
  assert (Hd2 : (d <= 24)%Z).
  { destruct (Z.le_gt_cases d 24) as [L|L]; [assumption|exfalso].
    assert (2 ^ 24 <= 2 ^ (d - 1))%Z by (apply Z.pow_le_mono_r; lia).
    change (2 ^ 23)%Z with 8388608%Z in *. change (2 ^ 24)%Z with 16777216%Z in *.
    simpl in H. lia. }
  assert (Hk : (-149 <= k <= 104)%Z) by (simpl in H; lia).
  set (q := Z.to_pos (Zpos p * 2 ^ (53 - d))).
  assert (Hq : Zpos q = (Zpos p * 2 ^ (53 - d))%Z).
  { unfold q. rewrite Z2Pos.id; [reflexivity|]. apply Z.mul_pos_pos; [lia|].
    apply Z.pow_pos_nonneg; lia. }
  apply (rounds_to_exact _ _ (S754_finite s q (k - (53 - d))) N).
  - left. split; [|lia]. rewrite Hq. split.
    + replace 52%Z with ((d - 1) + (53 - d))%Z by lia. rewrite Z.pow_add_r by lia.
      apply Z.mul_le_mono_nonneg_r; [apply Z.pow_nonneg; lia|lia].
    + replace 53%Z with (d + (53 - d))%Z at 2 by lia. rewrite Z.pow_add_r by lia.
      apply Z.mul_lt_mono_pos_r; [apply Z.pow_pos_nonneg; lia|lia].
  - exact I.
  - rewrite !fR_SF. cbn [SF2R]. unfold F2R. cbn [Fnum Fexp]. clearbody q d.
    replace (IZR (cond_Zopp s (Zpos q))) with (IZR (cond_Zopp s (Zpos p)) * bpow radix2 (53 - d)).
    2: { rewrite <- (IZR_Zpower radix2) by lia. rewrite <- mult_IZR. f_equal.
         destruct s; simpl cond_Zopp; rewrite ?Hq; change (Z.pow_pos 2) with (Z.pow_pos 2).
         - change (Z.neg q) with (- Zpos q)%Z. change (Z.neg p) with (- Zpos p)%Z. rewrite Hq.
           simpl radix_val. lia.
         - reflexivity. }
    rewrite Rmult_assoc, <- bpow_plus. f_equal. f_equal. lia.
Qed.

Definition num_valid (x : snum) : Prop := forall f, nval x = Real f -> is_f64 f.

Lemma rat_to_f64_eq m r : real_build m ->
  rat_to_f64 m r = Ok (f_div (f_mul (f_of_Z (rsign r)) (f_of_Z (rnum r))) (f_of_Z (rden r))).
Proof.
  intros H. unfold rat_to_f64, m_of_Z, m_mul, m_div.
  repeat (rewrite trap_real by assumption; cbn [bind]). reflexivity.
Qed.

Definition val_f64 (v : val) : f64 :=
  match v with
  | Real f => f
  | Rational r => f_div (f_mul (f_of_Z (rsign r)) (f_of_Z (rnum r))) (f_of_Z (rden r))
  | Integer z => f_of_Z z
  end.

Lemma val_to_f64_eq m v : real_build m -> val_to_f64 m v = Ok (val_f64 v).
Proof.
  intros H. destruct v; simpl; [|now apply rat_to_f64_eq|reflexivity].
  unfold m_of_Z. now apply trap_real.
Qed.

Lemma sn_to_f64_eq m x : real_build m -> sn_to_f64 m x = Ok (val_f64 (nval x)).
Proof. apply val_to_f64_eq. Qed.

Definition val_valid (v : val) : Prop := match v with Real f => is_f64 f | _ => True end.
Lemma val_f64_is v : val_valid v -> is_f64 (val_f64 v).
Proof. destruct v; simpl; intros; auto using f_div_is, f_mul_is, f_of_Z_is. Qed.

(** operations with at least one f64 operand *)
Definition v_real (v : val) : bool := match v with Real _ => true | _ => false end.

Lemma val_add_real m a b : real_build m -> v_real a || v_real b = true ->
  val_add m a b = Ok (Real (f_add (val_f64 a) (val_f64 b))).
Proof.
  intros Hm H. destruct a, b; try discriminate H; simpl;
    unfold m_of_Z, m_add; rewrite ?(rat_to_f64_eq m _ Hm);
    repeat (rewrite trap_real by assumption; cbn [bind]); cbn [bind];
    repeat (rewrite trap_real by assumption; cbn [bind]); reflexivity.
Qed.
Lemma val_sub_real m a b : real_build m -> v_real a || v_real b = true ->
  val_sub m a b = Ok (Real (f_sub (val_f64 a) (val_f64 b))).
Proof.
  intros Hm H. destruct a, b; try discriminate H; simpl;
    unfold m_of_Z, m_sub; rewrite ?(rat_to_f64_eq m _ Hm);
    repeat (rewrite trap_real by assumption; cbn [bind]); cbn [bind];
    repeat (rewrite trap_real by assumption; cbn [bind]); reflexivity.
Qed.
Lemma val_mul_real m a b : real_build m -> v_real a || v_real b = true ->
  val_is_zero a = false -> val_is_zero b = false ->
  val_mul m a b = Ok (Real (f_mul (val_f64 a) (val_f64 b))).
Proof.
  intros Hm H Za Zb. unfold val_mul. rewrite Za, Zb. cbn [orb].
  destruct a, b; try discriminate H; simpl;
    unfold m_of_Z, m_mul; rewrite ?(rat_to_f64_eq m _ Hm);
    repeat (rewrite trap_real by assumption; cbn [bind]); cbn [bind];
    repeat (rewrite trap_real by assumption; cbn [bind]); reflexivity.
Qed.
Lemma val_div_real m a b : real_build m -> v_real a || v_real b = true ->
  val_is_zero a = false ->
  val_div m a b = Ok (Real (f_div (val_f64 a) (val_f64 b))).
Proof.
  intros Hm H Za. unfold val_div. rewrite Za.
  destruct a, b; try discriminate H; simpl;
    unfold m_of_Z, m_div; rewrite ?(rat_to_f64_eq m _ Hm);
    repeat (rewrite trap_real by assumption; cbn [bind]); cbn [bind];
    repeat (rewrite trap_real by assumption; cbn [bind]); reflexivity.
Qed.

(** exact operands never produce an f64 *)
Lemma val_op_exact m a b v : v_real a || v_real b = false ->
  val_add m a b = Ok v \/ val_sub m a b = Ok v \/ val_mul m a b = Ok v \/ val_div m a b = Ok v ->
  v_real v = false.
Proof.
  intros H K.
  destruct K as [K|[K|[K|K]]]; destruct a, b; try discriminate H;
    unfold val_add, val_sub, val_mul, val_div in K;
    repeat match type of K with
    | (if ?c then _ else _) = _ => destruct c; [injection K as <-; reflexivity|]
    end; repeat inv_bind K; injection K as <-; reflexivity.
Qed.

Lemma val_valid_real v : v_real v = false -> val_valid v.
Proof. destruct v; simpl; auto; discriminate. Qed.

Lemma guard_ok m l r v : guard m l r = Ok v -> r = Ok v.
Proof. unfold guard. destruct (is_strict m && l); [discriminate|auto]. Qed.

Lemma guard_real m l r : real_build m -> guard m l r = r.
Proof. intros H. unfold guard. now rewrite real_not_strict. Qed.

Lemma wrap_val_valid v : val_valid v -> val_valid (nval (wrap_val v)).
Proof.
  unfold wrap_val. destruct (val_is_zero v); [reflexivity|].
  destruct (val_is_one v); [reflexivity|]. exact (fun H => H).
Qed.

Lemma val_neg_valid m v w : val_valid v -> val_neg m v = Ok w -> val_valid w.
Proof.
  destruct v; simpl; intros Hv H.
  - inv_bind H. now injection H as <-.
  - inv_bind H. now injection H as <-.
  - injection H as <-. now apply f_neg_is.
Qed.

Lemma val_op_valid m a b v : real_build m -> val_valid a -> val_valid b ->
  val_add m a b = Ok v \/ val_sub m a b = Ok v \/ val_mul m a b = Ok v \/ val_div m a b = Ok v ->
  val_valid v.
Proof.
  intros Hm Ha Hb K. destruct (v_real a || v_real b) eqn:E.
  2: { apply val_valid_real, (val_op_exact m a b v E K). }
  pose proof (val_f64_is a Ha). pose proof (val_f64_is b Hb).
  destruct K as [K|[K|[K|K]]].
  - rewrite val_add_real in K by assumption. injection K as <-. now apply f_add_is.
  - rewrite val_sub_real in K by assumption. injection K as <-. now apply f_sub_is.
  - destruct (val_is_zero a || val_is_zero b) eqn:Z.
    + unfold val_mul in K. rewrite Z in K. now injection K as <-.
    + apply orb_false_iff in Z as [Za Zb].
      rewrite val_mul_real in K by assumption. injection K as <-. now apply f_mul_is.
  - destruct (val_is_zero a) eqn:Za.
    + unfold val_div in K. rewrite Za in K. now injection K as <-.
    + rewrite val_div_real in K by assumption. injection K as <-. now apply f_div_is.
Qed.

(** every number the API produces holds a genuine binary64 datum *)
Lemma api_number_valid m x : real_build m -> api_number m x -> val_valid (nval x).
Proof.
  intros Hm H. induction H.
  - exact I.
  - unfold sn_of_u64, val_of_u64 in H0. repeat inv_bind H0. injection H0 as <-.
    inv_bind Hb. injection Hb as <-. exact I.
  - exact H.
  - now apply f_of_f32_is.
  - unfold sn_new_rational, val_new_rational in H2. repeat inv_bind H2.
    destruct a as [v|]; [|discriminate H2]. injection H2 as <-. simpl.
    inv_bind Hb. destruct a; [|discriminate Hb]. injection Hb as <-. exact I.
  - exact I.
  - exact I.
  - left. cbv. intuition discriminate.
  - left. cbv. intuition discriminate.
  - unfold sn_neg in H0. inv_bind H0. injection H0 as <-. apply guard_ok in Hb.
    apply wrap_val_valid. eapply val_neg_valid; eassumption.
  - unfold sn_add in H1. destruct (sn_is_zero x); [now injection H1 as <-|].
    destruct (sn_is_zero y); [now injection H1 as <-|].
    inv_bind H1. injection H1 as <-. apply guard_ok in Hb. apply wrap_val_valid.
    apply (val_op_valid m (nval x) (nval y)); auto.
  - unfold sn_sub in H1. destruct (sn_is_zero x).
    { unfold sn_neg in H1. inv_bind H1. injection H1 as <-. apply guard_ok in Hb.
      apply wrap_val_valid. eapply val_neg_valid; [|eassumption]. assumption. }
    destruct (sn_is_zero y); [now injection H1 as <-|].
    inv_bind H1. injection H1 as <-. apply guard_ok in Hb. apply wrap_val_valid.
    apply (val_op_valid m (nval x) (nval y)); auto.
  - unfold sn_mul in H1. destruct (sn_is_one x); [now injection H1 as <-|].
    destruct (sn_is_one y); [now injection H1 as <-|].
    inv_bind H1. injection H1 as <-. apply guard_ok in Hb. apply wrap_val_valid.
    apply (val_op_valid m (nval x) (nval y)); auto.
  - unfold sn_div in H1.
    inv_bind H1. injection H1 as <-. apply guard_ok in Hb. apply wrap_val_valid.
    apply (val_op_valid m (nval x) (nval y)); auto.
Qed.

(** ** conversions of integers within u64/i64 range *)
Lemma f_of_Z_exact_small z : (-1 <= z <= 1)%Z -> f_finite (f_of_Z z) /\ fR (f_of_Z z) = IZR z.
Proof.
  intros H. assert (E : exists q, f_val (f_of_Z z) = Some q /\ (q == inject_Z z)%Q).
  { assert (z = -1 \/ z = 0 \/ z = 1)%Z as [->|[->| ->]] by lia;
      (eexists; split; [vm_compute; reflexivity|reflexivity]). }
  assert (F : f_finite (f_of_Z z)).
  { assert (z = -1 \/ z = 0 \/ z = 1)%Z as [->|[->| ->]] by lia; exact I. }
  split; [assumption|]. destruct E as [q [E1 E2]]. unfold fR. rewrite E1.
  rewrite (Qeq_eqR _ _ E2). apply Q2R_Z.
Qed.

Definition f_2p64 : f64 := S754_finite false 4503599627370496 12.
Lemma f_2p64_val : is_f64 f_2p64 /\ fR f_2p64 = IZR two64.
Proof.
  split; [left; cbv; intuition discriminate|].
  unfold fR, f_2p64, f_val. change (4503599627370496 * 2 ^ 12)%Z with two64. apply Q2R_Z.
Qed.

(** correct rounding is monotone enough: a result between two floats stays between them *)
Lemma rounds_to_between r f lo hi : rounds_to r f -> Rabs r < overflow64 ->
  is_f64 lo -> f_finite lo -> is_f64 hi -> f_finite hi ->
  fR lo <= r <= fR hi -> fR lo <= fR f <= fR hi.
Proof.
  intros [_ [H _]] L Hlo Flo Hhi Fhi [A B]. destruct (H L) as [_ N].
  destruct (N lo Hlo Flo) as [Nl _]. destruct (N hi Hhi Fhi) as [Nh _].
  revert Nl Nh. unfold Rabs. repeat destruct Rcase_abs; intros; lra.
Qed.

Lemma two64_overflow : IZR two64 < overflow64.
Proof. unfold overflow64. apply IZR_lt. vm_compute. reflexivity. Qed.

Lemma f_of_Z_range z : (0 < z < two64)%Z ->
  f_finite (f_of_Z z) /\ 1 <= fR (f_of_Z z) <= IZR two64.
Proof.
  intros [A B].
  assert (H1 : 1 <= IZR z) by (apply (IZR_le 1); lia).
  assert (H2 : IZR z < IZR two64) by (apply IZR_lt; lia).
  pose proof two64_overflow as O.
  assert (L : Rabs (IZR z) < overflow64) by (rewrite Rabs_pos_eq; lra).
  pose proof (f_of_Z_rounds z) as R. pose proof R as [_ [R2 _]].
  destruct (R2 L) as [F _]. split; [assumption|].
  destruct f_2p64_val as [V1 V2]. destruct (f_of_Z_exact_small 1) as [_ V3]; [lia|].
  rewrite <- V2. change 1 with (IZR 1). rewrite <- V3.
  apply (rounds_to_between _ _ _ _ R L (f_of_Z_is 1) I V1 I). rewrite V3, V2. simpl. lra.
Qed.

Lemma val_zero_f64 v : val_inv v -> val_is_zero v = true ->
  f_finite (val_f64 v) /\ fR (val_f64 v) = 0.
Proof.
  destruct v as [z|r|f]; simpl; intros I0 H; [| |discriminate].
  - apply Z.eqb_eq in H. subst z. apply (f_of_Z_exact_small 0). lia.
  - apply andb_prop in H as [H1 H2]. apply Z.eqb_eq in H1. apply negb_true_iff, Z.eqb_neq in H2.
    rewrite H1. destruct I0 as [[Is [In Id]] Iz].
    destruct (f_of_Z_exact_small (rsign r)) as [Fs Vs]; [lia|].
    destruct (f_of_Z_exact_small 0) as [F0 V0]; [lia|].
    pose proof (f_mul_rounds _ _ (f_of_Z_is (rsign r)) (f_of_Z_is 0) Fs F0) as P.
    rewrite V0, Rmult_0_r in P.
    destruct (rounds_to_exact _ _ (f_of_Z 0) P (f_of_Z_is 0) F0 V0) as [Fp Vp].
    destruct (f_of_Z_range (rden r)) as [Fd Vd]; [lia|].
    pose proof (f_div_rounds _ _ (proj1 P) (f_of_Z_is (rden r)) Fp Fd) as D.
    rewrite Vp in D. unfold Rdiv in D. rewrite Rmult_0_l in D.
    apply (rounds_to_exact _ _ (f_of_Z 0) (D ltac:(lra)) (f_of_Z_is 0) F0 V0).
Qed.

Lemma val_one_f64 v : val_inv v -> val_is_one v = true ->
  f_finite (val_f64 v) /\ fR (val_f64 v) = 1.
Proof.
  destruct v as [z|r|f]; simpl; intros I0 H; [| |discriminate].
  - apply Z.eqb_eq in H. subst z. apply (f_of_Z_exact_small 1). lia.
  - apply andb_prop in H as [H H2]. apply andb_prop in H as [H1 H3].
    apply Z.eqb_eq in H1, H3. apply negb_true_iff, Z.eqb_neq in H2.
    rewrite H1, H3. destruct I0 as [[Is [In Id]] Iz].
    destruct (f_of_Z_exact_small 1) as [F1 V1]; [lia|].
    destruct (f_of_Z_range (rden r)) as [Fd Vd]; [lia|].
    pose proof (f_mul_rounds _ _ (f_of_Z_is 1) (f_of_Z_is (rden r)) F1 Fd) as P.
    rewrite V1, Rmult_1_l in P.
    destruct (rounds_to_exact _ _ _ P (f_of_Z_is (rden r)) Fd eq_refl) as [Fp Vp].
    pose proof (f_div_rounds _ _ (proj1 P) (f_of_Z_is (rden r)) Fp Fd ltac:(lra)) as D.
    rewrite Vp in D. unfold Rdiv in D. rewrite Rinv_r in D by lra.
    apply (rounds_to_exact _ _ (f_of_Z 1) D (f_of_Z_is 1) F1 V1).
Qed.

Lemma wrap_real f : wrap_val (Real f) = mkNum (Real f) TNothing.
Proof. reflexivity. Qed.

Lemma backed_real x y : f64_backed x \/ f64_backed y -> v_real (nval x) || v_real (nval y) = true.
Proof. intros [[f ->]|[f ->]]; [reflexivity|apply orb_true_r]. Qed.

Lemma ok_zero x : num_ok x -> sn_is_zero x = true -> val_is_zero (nval x) = true.
Proof. intros [_ H]. unfold sn_is_zero. destruct (ntag x); try discriminate. auto. Qed.
Lemma ok_one x : num_ok x -> sn_is_one x = true -> val_is_one (nval x) = true.
Proof. intros [_ H]. unfold sn_is_one. destruct (ntag x); try discriminate. auto. Qed.
