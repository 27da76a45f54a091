(** * PropsNum: property theorems about fractions and numbers (C01-C11, C16, C17)

    Statements only use the model functions (Rational.v, SmartNum.v), the specification
    (Spec.v) and standard arithmetic.  Proofs are in RationalProofs.v, NumProofs*.v. *)
From Coq Require Import ZArith QArith List String Bool Lia.
From Coq Require Import Floats.SpecFloat.
From Verif Require Import Base Float Rational SmartNum Ast Spec.
From Verif Require Import BaseProofs RationalProofs NumProofs NumProofs2.
Open Scope Z_scope.

(** ** C01: reduce *)
Theorem c01_reduce_value x :
  rat_typed x -> 0 < rden x ->
  rsign (rat_reduce x) = rsign x /\ 0 < rden (rat_reduce x) /\
  (ratQ (rat_reduce x) == ratQ x)%Q.
Proof.
  intros (_ & Hn & _) Hd. apply in_u64_iff in Hn.
  split; [apply reduce_sign|]. split; [apply reduce_bounds; lia | apply reduce_Q; lia].
Qed.
Print Assumptions c01_reduce_value.

(** reduce never divides by zero (which would panic) *)
Theorem c01_reduce_never_panics x : rat_typed x -> rat_reduce_run x = Ok (rat_reduce x).
Proof.
  intros (_ & Hn & Hd). unfold rat_reduce_run, rat_reduce, u64_div_run.
  assert (N : reduce_divisor x =? 0 = false).
  { unfold reduce_divisor. destruct (Z.eqb_spec (gcd (rnum x) (rden x)) 0) as [E|E]; [reflexivity|].
    now apply Z.eqb_neq. }
  rewrite N. reflexivity.
Qed.
Print Assumptions c01_reduce_never_panics.

Theorem c01_reduce_lowest x :
  rat_typed x -> rnum x <> 0 \/ rden x <> 0 -> lowest_terms (rat_reduce x).
Proof.
  intros (_ & Hn & Hd) H0. apply in_u64_iff in Hn, Hd. apply reduce_lowest; lia.
Qed.
Print Assumptions c01_reduce_lowest.

Theorem c01_reduce_idempotent x :
  rat_typed x -> rat_reduce (rat_reduce x) = rat_reduce x.
Proof. intros (_ & Hn & Hd). apply in_u64_iff in Hn, Hd. apply reduce_idem; lia. Qed.
Print Assumptions c01_reduce_idempotent.

(** the Euclid loop terminates with the greatest common divisor for all u64 arguments *)
Theorem c01_gcd_correct a b : in_u64 a = true -> in_u64 b = true -> gcd a b = Z.gcd a b.
Proof. intros Ha Hb. apply in_u64_iff in Ha, Hb. apply gcd_correct; lia. Qed.
Print Assumptions c01_gcd_correct.

Example c01_example :
  rat_typed (mkRat (-1) 6 4) /\ rat_reduce (mkRat (-1) 6 4) = mkRat (-1) 3 2.
Proof. repeat split. Qed.

(** ** C02: equality *)
Theorem c02_eq_numeric x y : rat_valid x -> rat_valid y ->
  (rat_eqb x y = true <-> (ratQ x == ratQ y)%Q).
Proof. exact (rat_eqb_iff x y). Qed.
Print Assumptions c02_eq_numeric.

Theorem c02_eq_equivalence :
  (forall x, rat_valid x -> rat_eqb x x = true) /\
  (forall x y, rat_valid x -> rat_valid y -> rat_eqb x y = rat_eqb y x) /\
  (forall x y z, rat_valid x -> rat_valid y -> rat_valid z ->
     rat_eqb x y = true -> rat_eqb y z = true -> rat_eqb x z = true).
Proof.
  split; [|split].
  - intros x Hx. apply rat_eqb_iff; try assumption. reflexivity.
  - intros x y Hx Hy. apply eq_true_iff_eq. rewrite !rat_eqb_iff by assumption.
    split; intros H; symmetry; exact H.
  - intros x y z Hx Hy Hz. rewrite !rat_eqb_iff by assumption. intros -> ->. reflexivity.
Qed.
Print Assumptions c02_eq_equivalence.

Example c02_example : rat_valid (mkRat 1 2 4) /\ rat_valid (mkRat 1 1 2) /\
  rat_eqb (mkRat 1 2 4) (mkRat 1 1 2) = true /\
  rat_eqb (mkRat 1 0 7) (mkRat (-1) 0 3) = true /\
  rat_eqb (mkRat 1 1 2) (mkRat (-1) 1 2) = false.
Proof. repeat split; unfold two64; simpl; lia. Qed.

(** ** C03: construction *)
Theorem c03_new s n d m : in_i64 s = true -> m = Debug \/ m = Release ->
  (m = Debug -> s <> - two63) ->
  ((s = 1 \/ s = -1) /\ d <> 0 -> rat_new m s n d = Ok (Some (mkRat s n d))) /\
  (~ ((s = 1 \/ s = -1) /\ d <> 0) -> rat_new m s n d = Ok None).
Proof.
  intros Hs Hm Hmin. rewrite rat_new_spec by assumption.
  assert ((s =? - two63) && negb match m with Release => true | _ => false end = false) as ->.
  { destruct Hm as [-> | ->]; [|apply andb_false_r].
    rewrite (proj2 (Z.eqb_neq s (- two63)) (Hmin eq_refl)). reflexivity. }
  assert (((s =? 1) || (s =? -1)) && negb (d =? 0) = true <-> (s = 1 \/ s = -1) /\ d <> 0) as E.
  { rewrite andb_true_iff, orb_true_iff, negb_true_iff, !Z.eqb_eq, Z.eqb_neq. reflexivity. }
  destruct (_ && _); split; intros H; try reflexivity; exfalso; intuition congruence.
Qed.
Print Assumptions c03_new.

Theorem c03_new_min n d :
  rat_new Debug (- two63) n d = Panic /\ rat_new Release (- two63) n d = Ok None.
Proof. split; reflexivity. Qed.
Print Assumptions c03_new_min.

Theorem c03_new_positive_negative m n d :
  rat_new_positive m n d = Ok (if d =? 0 then None else Some (mkRat 1 n d)) /\
  rat_new_negative m n d = Ok (if d =? 0 then None else Some (mkRat (-1) n d)).
Proof.
  unfold rat_new_positive, rat_new_negative, rat_new.
  split; destruct m, (d =? 0); reflexivity.
Qed.
Print Assumptions c03_new_positive_negative.

Example c03_example : rat_new Debug (-1) 3 7 = Ok (Some (mkRat (-1) 3 7)) /\
  rat_new Debug 2 3 7 = Ok None /\ rat_new Release 1 3 0 = Ok None.
Proof. repeat split. Qed.

(** ** C04: product and quotient *)
Theorem c04_mul_exact x y z : rat_valid x -> rat_valid y -> rat_mul Debug x y = Ok z ->
  rat_valid z /\ lowest_terms z /\ (ratQ z == ratQ x * ratQ y)%Q.
Proof. exact (rat_mul_exact Debug x y z ltac:(discriminate)). Qed.
Print Assumptions c04_mul_exact.

Theorem c04_div_exact x y z : rat_valid x -> rat_valid y -> ~ (ratQ y == 0)%Q ->
  rat_div Debug x y = Ok z ->
  rat_valid z /\ lowest_terms z /\ (ratQ z == ratQ x / ratQ y)%Q.
Proof.
  intros Hx Hy H0. apply rat_div_exact; try assumption; [discriminate|].
  apply ratQ_nonzero; assumption.
Qed.
Print Assumptions c04_div_exact.

Theorem c04_mul_panics_iff x y : rat_valid x -> rat_valid y ->
  (rat_mul Debug x y = Panic <-> (two64 <= rnum x * rnum y \/ two64 <= rden x * rden y)).
Proof. exact (rat_mul_panic x y). Qed.
Print Assumptions c04_mul_panics_iff.

Theorem c04_div_panics_iff x y : rat_valid x -> rat_valid y ->
  (rat_div Debug x y = Panic <-> (two64 <= rnum x * rden y \/ two64 <= rden x * rnum y)).
Proof. exact (rat_div_panic x y). Qed.
Print Assumptions c04_div_panics_iff.

(** debug either returns or panics; release agrees whenever debug returns *)
Theorem c04_total_and_agree x y : rat_valid x -> rat_valid y ->
  (rat_mul Debug x y = Panic \/ exists z, rat_mul Debug x y = Ok z /\ rat_mul Release x y = Ok z) /\
  (rat_div Debug x y = Panic \/ exists z, rat_div Debug x y = Ok z /\ rat_div Release x y = Ok z).
Proof.
  intros Hx Hy. split.
  - destruct (rat_mul Debug x y) as [z| | |] eqn:E; [right|left; reflexivity|exfalso..].
    + exists z. split; [reflexivity|]. apply (rat_mul_mono Debug Release I). exact E.
    + unfold rat_mul, i64_mul, u64_mul, ovf_i64, ovf_u64 in E.
      repeat match type of E with context [if ?c then _ else _] => destruct c end; discriminate.
    + unfold rat_mul, i64_mul, u64_mul, ovf_i64, ovf_u64 in E.
      repeat match type of E with context [if ?c then _ else _] => destruct c end; discriminate.
  - destruct (rat_div Debug x y) as [z| | |] eqn:E; [right|left; reflexivity|exfalso..].
    + exists z. split; [reflexivity|]. apply (rat_div_mono Debug Release I). exact E.
    + unfold rat_div, i64_mul, u64_mul, ovf_i64, ovf_u64 in E.
      repeat match type of E with context [if ?c then _ else _] => destruct c end; discriminate.
    + unfold rat_div, i64_mul, u64_mul, ovf_i64, ovf_u64 in E.
      repeat match type of E with context [if ?c then _ else _] => destruct c end; discriminate.
Qed.
Print Assumptions c04_total_and_agree.

Example c04_example : rat_valid (mkRat 1 2 3) /\ rat_valid (mkRat (-1) 9 4) /\
  rat_mul Debug (mkRat 1 2 3) (mkRat (-1) 9 4) = Ok (mkRat (-1) 3 2) /\
  rat_div Debug (mkRat 1 2 3) (mkRat (-1) 4 9) = Ok (mkRat (-1) 3 2).
Proof. repeat split; unfold two64; simpl; try lia. Qed.

(** ** C05: sum and difference in range, both builds *)
Theorem c05_add_exact m x y : rat_valid x -> rat_valid y ->
  rnum x * rden y < two63 -> rnum y * rden x < two63 ->
  Z.abs (rsign x * (rnum x * rden y) + rsign y * (rnum y * rden x)) < two63 ->
  rden x * rden y < two64 ->
  exists z, rat_add m x y = Ok z /\ rat_valid z /\ lowest_terms z /\
    (ratQ z == ratQ x + ratQ y)%Q /\ rsign z = Z.sgn (Qnum (ratQ x + ratQ y)).
Proof.
  intros Hx Hy H1 H2 H3 H4.
  destruct (rat_add_spec m x y Hx Hy) as (z & E & L & N & D & Q & S);
    [repeat split; assumption|].
  exists z. split; [assumption|]. split; [|tauto].
  apply rat_inv_valid; [eapply rat_add_inv; eauto|lia].
Qed.
Print Assumptions c05_add_exact.

Theorem c05_sub_exact m x y : rat_valid x -> rat_valid y ->
  rnum x * rden y < two63 -> rnum y * rden x < two63 ->
  Z.abs (rsign x * (rnum x * rden y) - rsign y * (rnum y * rden x)) < two63 ->
  rden x * rden y < two64 ->
  exists z, rat_sub m x y = Ok z /\ rat_valid z /\ lowest_terms z /\
    (ratQ z == ratQ x - ratQ y)%Q /\ rsign z = Z.sgn (Qnum (ratQ x - ratQ y)).
Proof.
  intros Hx Hy H1 H2 H3 H4.
  destruct (rat_sub_spec m x y Hx Hy) as (z & E & L & N & D & Q & S);
    [repeat split; assumption|].
  exists z. split; [assumption|]. split; [|tauto].
  apply rat_inv_valid; [eapply rat_sub_inv; eauto|lia].
Qed.
Print Assumptions c05_sub_exact.

(** without range hypotheses: if the run loses nothing, the result is exact *)
Theorem c05_exact_when_lossless x y z : rat_valid x -> rat_valid y ->
  (rat_add Strict x y = Ok z -> rat_valid z /\ (ratQ z == ratQ x + ratQ y)%Q) /\
  (rat_sub Strict x y = Ok z -> rat_valid z /\ (ratQ z == ratQ x - ratQ y)%Q).
Proof. intros Hx Hy. split; [apply rat_add_strict | apply rat_sub_strict]; assumption. Qed.
Print Assumptions c05_exact_when_lossless.

Example c05_example : rat_add Debug (mkRat 1 1 6) (mkRat (-1) 5 3) = Ok (mkRat (-1) 3 2) /\
  rat_sub Release (mkRat 1 1 6) (mkRat 1 2 12) = Ok (mkRat 0 0 1) /\
  rat_valid (mkRat 1 1 6) /\ rat_valid (mkRat (-1) 5 3).
Proof. repeat split; unfold two64; simpl; try lia. Qed.

(** ** C06: silently wrong sums (violated): (2^63+1)/2 + 1/1 in a debug build *)
Theorem c06_add_silently_wrong_refuted :
  exists x y z, rat_valid x /\ rat_valid y /\
    rat_add Debug x y = Ok z /\ rat_add Release x y = Ok z /\
    ~ (ratQ z == ratQ x + ratQ y)%Q /\ (0 < ratQ x + ratQ y)%Q /\ (ratQ z < 0)%Q.
Proof.
  exists (mkRat 1 (two63 + 1) 2), (mkRat 1 1 1).
  eexists. split; [|split; [|split; [vm_compute; reflexivity|]]].
  - unfold rat_valid, two63, two64; simpl; lia.
  - unfold rat_valid, two63, two64; simpl; lia.
  - split; [vm_compute; reflexivity|]. split; [|split; vm_compute; reflexivity].
    intros H. vm_compute in H. discriminate.
Qed.
Print Assumptions c06_add_silently_wrong_refuted.

Theorem c06_sub_silently_wrong_refuted :
  exists x y z, rat_valid x /\ rat_valid y /\
    rat_sub Debug x y = Ok z /\ ~ (ratQ z == ratQ x - ratQ y)%Q.
Proof.
  exists (mkRat (-1) (two63 + 2) 1), (mkRat (-1) 1 1).
  eexists. split; [|split; [|split; [vm_compute; reflexivity|]]].
  - unfold rat_valid, two63, two64; simpl; lia.
  - unfold rat_valid, two63, two64; simpl; lia.
  - intros H. vm_compute in H. discriminate.
Qed.
Print Assumptions c06_sub_silently_wrong_refuted.

(** what does hold: if debug returns and both cross products are below 2^63, it is exact *)
Theorem c06_debug_exact_below_two63 x y z : rat_valid x -> rat_valid y ->
  rnum x * rden y < two63 -> rnum y * rden x < two63 ->
  (rat_add Debug x y = Ok z -> (ratQ z == ratQ x + ratQ y)%Q) /\
  (rat_sub Debug x y = Ok z -> (ratQ z == ratQ x - ratQ y)%Q).
Proof.
  intros Hx Hy H1 H2. split; intros H.
  - apply (rat_add_debug_below x y z Hx Hy H1 H2 H).
  - apply (rat_sub_debug_below x y z Hx Hy H1 H2 H).
Qed.
Print Assumptions c06_debug_exact_below_two63.

(** ** C07: tags *)
Theorem c07_is_zero m x : api_number m x ->
  (sn_is_zero x = true <-> exists q, exact_Q x = Some q /\ (q == 0)%Q).
Proof. intros H. apply is_zero_exact. eapply api_number_ok; eauto. Qed.
Print Assumptions c07_is_zero.

Theorem c07_is_one m x : api_number m x ->
  (sn_is_one x = true <-> exists q, exact_Q x = Some q /\ (q == 1)%Q).
Proof. intros H. apply is_one_exact. eapply api_number_ok; eauto. Qed.
Print Assumptions c07_is_one.

Theorem c07_is_pi_e m x : api_number m x ->
  (sn_is_pi x = true <-> x = sn_pi) /\ (sn_is_e x = true <-> x = sn_e).
Proof.
  intros H. apply api_number_ok in H. split; [apply is_pi_eq | apply is_e_eq]; assumption.
Qed.
Print Assumptions c07_is_pi_e.

Theorem c07_floats_never_zero_one m x f : api_number m x -> nval x = Real f ->
  sn_is_zero x = false /\ sn_is_one x = false.
Proof.
  intros H E. apply api_number_ok in H. rewrite is_zero_val, is_one_val by assumption.
  rewrite E. split; reflexivity.
Qed.
Print Assumptions c07_floats_never_zero_one.

(** reachable: 1/3 + 2/3 is recognised as one, 1/2 - 1/2 as zero *)
Example c07_example : exists x y z w,
  sn_new_rational Debug 1 1 3 = Ok (Some x) /\ sn_new_rational Debug 1 2 3 = Ok (Some y) /\
  sn_add Debug x y = Ok z /\ api_number Debug z /\ sn_is_one z = true /\
  sn_sub Debug x x = Ok w /\ api_number Debug w /\ sn_is_zero w = true.
Proof.
  exists (mkNum (Rational (mkRat 1 1 3)) TNothing), (mkNum (Rational (mkRat 1 2 3)) TNothing),
    sn_one, sn_zero.
  assert (api_number Debug (mkNum (Rational (mkRat 1 1 3)) TNothing)) as H1
    by (apply (An_rational _ 1 1 3); vm_compute; reflexivity).
  assert (api_number Debug (mkNum (Rational (mkRat 1 2 3)) TNothing)) as H2
    by (apply (An_rational _ 1 2 3); vm_compute; reflexivity).
  repeat split; try (vm_compute; reflexivity).
  - apply (An_add _ _ _ _ H1 H2). vm_compute. reflexivity.
  - apply (An_sub _ _ _ _ H1 H1). vm_compute. reflexivity.
Qed.

(** ** C08: integers.  [z] is the mathematical result. *)
Definition integer_outcome (m : mode) (z : Z) (r : res snum) : Prop :=
  (in_i64 z = true -> exists n, r = Ok n /\ sn_to_i64 n = Some z) /\
  (in_i64 z = false -> m = Debug -> r = Panic) /\
  (in_i64 z = false -> m = Release ->
     exists n v, r = Ok n /\ sn_to_i64 n = Some v /\ in_i64 v = true /\ (v - z) mod two64 = 0).

Lemma int_outcome_spec m z r : int_outcome m z r -> integer_outcome m z r.
Proof.
  unfold int_outcome, integer_outcome. destruct (in_i64 z); intros H.
  - split; [|split; discriminate]. intros _. eexists; split; [exact H|reflexivity].
  - split; [discriminate|]. split; intros _ ->.
    + exact H.
    + destruct H as (v & H1 & H2 & H3). exists (sn_of_i64 v), v. auto.
Qed.

Theorem c08_integer_arithmetic m a b : in_i64 a = true -> in_i64 b = true ->
  integer_outcome m (a + b) (sn_add m (sn_of_i64 a) (sn_of_i64 b)) /\
  integer_outcome m (a - b) (sn_sub m (sn_of_i64 a) (sn_of_i64 b)) /\
  integer_outcome m (a * b) (sn_mul m (sn_of_i64 a) (sn_of_i64 b)) /\
  integer_outcome m (- a) (sn_neg m (sn_of_i64 a)).
Proof.
  intros Ha Hb. split; [|split; [|split]]; apply int_outcome_spec.
  - apply sn_add_int; assumption.
  - apply sn_sub_int; assumption.
  - apply sn_mul_int; assumption.
  - apply sn_neg_int.
Qed.
Print Assumptions c08_integer_arithmetic.

Example c08_example :
  sn_mul Debug (sn_of_i64 (two63 - 1)) (sn_of_i64 2) = Panic /\
  sn_mul Release (sn_of_i64 (two63 - 1)) (sn_of_i64 2) = Ok (sn_of_i64 (-2)) /\
  sn_mul Debug (sn_of_i64 (-6)) (sn_of_i64 7) = Ok (sn_of_i64 (-42)).
Proof. repeat split. Qed.

(** ** C09: exact when nothing is lost *)
Theorem c09_exact m x y p q : api_number m x -> api_number m y ->
  val_Q (nval x) = Some p -> val_Q (nval y) = Some q ->
  (forall z, sn_add Strict x y = Ok z -> exists r, val_Q (nval z) = Some r /\ (r == p + q)%Q) /\
  (forall z, sn_sub Strict x y = Ok z -> exists r, val_Q (nval z) = Some r /\ (r == p - q)%Q) /\
  (forall z, sn_mul Strict x y = Ok z -> exists r, val_Q (nval z) = Some r /\ (r == p * q)%Q) /\
  (forall z, ~ (q == 0)%Q ->
             sn_div Strict x y = Ok z -> exists r, val_Q (nval z) = Some r /\ (r == p / q)%Q) /\
  (forall z, sn_neg Strict x = Ok z -> exists r, val_Q (nval z) = Some r /\ (r == - p)%Q).
Proof.
  intros Hx Hy Hp Hq. apply api_number_ok in Hx, Hy.
  refine (conj _ (conj _ (conj _ (conj _ _)))); intros z.
  - intros H. exact (sn_add_strict x y z Hx Hy H p q Hp Hq).
  - intros H. exact (sn_sub_strict x y z Hx Hy H p q Hp Hq).
  - intros H. exact (sn_mul_strict x y z Hx Hy H p q Hp Hq).
  - intros H0 H. exact (sn_div_strict x y z p q Hx Hy H Hp Hq H0).
  - intros H. exact (sn_neg_strict x z p Hx H Hp).
Qed.
Print Assumptions c09_exact.

(** a lossless run is what both builds do (so c09 is a statement about them) *)
Theorem c09_lossless_is_real m x y z : m = Debug \/ m = Release ->
  (sn_add Strict x y = Ok z -> sn_add m x y = Ok z) /\
  (sn_sub Strict x y = Ok z -> sn_sub m x y = Ok z) /\
  (sn_mul Strict x y = Ok z -> sn_mul m x y = Ok z) /\
  (sn_div Strict x y = Ok z -> sn_div m x y = Ok z) /\
  (sn_neg Strict x = Ok z -> sn_neg m x = Ok z).
Proof.
  intros _. assert (mle Strict m) as Hm by exact I. repeat split.
  - apply sn_add_mono, Hm. - apply sn_sub_mono, Hm. - apply sn_mul_mono, Hm.
  - apply sn_div_mono, Hm. - apply sn_neg_mono, Hm.
Qed.
Print Assumptions c09_lossless_is_real.

(** 1/4 + 0.5 (f64) loses nothing and gives 0.75 *)
Example c09_example : exists x z,
  sn_new_rational Debug 1 1 4 = Ok (Some x) /\
  sn_add Strict x (sn_of_f64 (S754_finite false 4503599627370496 (-53))) = Ok z /\
  nval z = Real (S754_finite false 6755399441055744 (-53)).
Proof. eexists _, _. split; [|split]; vm_compute; reflexivity. Qed.

(** ** C10: identities *)
Theorem c10_identity m mode x z o : api_number m x -> api_number m z -> api_number m o ->
  sn_is_zero z = true -> sn_is_one o = true ->
  sn_add mode z x = Ok x /\
  (sn_is_zero x = false -> sn_add mode x z = Ok x) /\
  (sn_is_zero x = false -> sn_sub mode x z = Ok x) /\
  sn_mul mode o x = Ok x /\
  (sn_is_one x = false -> sn_mul mode x o = Ok x).
Proof.
  intros _ _ _ Hz Ho. repeat split; intros;
    auto using sn_add_0_l, sn_add_0_r, sn_sub_0_r, sn_mul_1_l, sn_mul_1_r.
Qed.
Print Assumptions c10_identity.

(** the remaining cases x zero (resp. one): the other zero (one) is returned *)
Theorem c10_identity_on_identity m mode x z o : api_number m x -> api_number m z ->
  sn_is_zero z = true -> sn_is_one o = true ->
  (sn_is_zero x = true -> sn_add mode x z = Ok z /\ sn_sub mode x z = Ok sn_zero) /\
  (sn_is_one x = true -> sn_mul mode x o = Ok o).
Proof.
  intros Hx Hz Z O. apply api_number_ok in Hx, Hz. split; intros H.
  - split; [apply sn_add_0_l, H|]. rewrite sn_sub_0_l by assumption. apply sn_neg_zero; assumption.
  - apply sn_mul_1_l, H.
Qed.
Print Assumptions c10_identity_on_identity.

Theorem c10_annihilator m mode x z : api_number m x -> api_number m z -> sn_is_zero z = true ->
  (exists r, sn_mul mode z x = Ok r /\ sn_is_zero r = true) /\
  (exists r, sn_mul mode x z = Ok r /\ sn_is_zero r = true) /\
  sn_div mode z x = Ok sn_zero.
Proof.
  intros _ Hz Z. apply api_number_ok in Hz.
  split; [apply sn_mul_0_l; assumption|]. split; [apply sn_mul_0_r; assumption|].
  apply sn_div_0_l; assumption.
Qed.
Print Assumptions c10_annihilator.

Theorem c10_zero_minus m x z : api_number m x -> sn_is_zero z = true ->
  (forall mode, sn_sub mode z x = sn_neg mode x) /\
  (sn_neg Debug x = Panic <-> nval x = Integer (- two63)) /\
  (exists r, sn_neg Release x = Ok r).
Proof.
  intros Hx Z. apply api_number_ok in Hx.
  split; [intros; apply sn_sub_0_l; assumption|].
  split; [apply sn_neg_panic; assumption | apply sn_neg_release].
Qed.
Print Assumptions c10_zero_minus.

Example c10_example : api_number Debug (sn_of_f64 S754_nan) /\
  sn_mul Debug sn_zero (sn_of_f64 S754_nan) = Ok sn_zero /\
  sn_div Debug sn_zero sn_zero = Ok sn_zero.
Proof. split; [constructor; exact I|]. split; reflexivity. Qed.

(** ** C11: division by zero *)
Theorem c11_div_by_zero_undefined m mode x y z : api_number m x -> api_number m y ->
  exact_num x -> sn_is_zero y = true -> sn_is_zero x = false -> sn_div mode x y = Ok z ->
  undefined_fraction z /\ sn_is_zero z = false /\ sn_is_one z = false.
Proof.
  intros Hx Hy Ex Zy Zx H. apply api_number_ok in Hx, Hy.
  assert (exact_num y) as Ey.
  { rewrite is_zero_val in Zy by assumption. intros f E. rewrite E in Zy. discriminate. }
  assert (undefined_fraction z) as U by (eapply div_zero_undefined with (x := x) (y := y); eassumption).
  split; [assumption|]. apply undefined_not_tagged; [|assumption].
  eapply sn_div_ok; [| |eassumption]; assumption.
Qed.
Print Assumptions c11_div_by_zero_undefined.

(** it panics (debug) at most for i64::MIN / 0 or when numerator * denominator-of-the-zero
    overflows; with the plain integer 0 only i64::MIN is left *)
Theorem c11_div_by_zero_returns m x y : api_number m x -> api_number m y ->
  exact_num x -> sn_is_zero y = true -> ~ int_min x -> num_of x * den_of y < two64 ->
  exists z, sn_div Debug x y = Ok z.
Proof.
  intros Hx Hy Ex Zy Hm Hr. apply api_number_ok in Hx, Hy.
  apply div_zero_debug; try assumption.
  rewrite is_zero_val in Zy by assumption. intros f E. rewrite E in Zy. discriminate.
Qed.
Print Assumptions c11_div_by_zero_returns.

Theorem c11_integer_by_zero v : in_i64 v = true -> v <> - two63 ->
  exists z, sn_div Debug (sn_of_i64 v) (sn_of_i64 0) = Ok z.
Proof.
  intros Hv Hne. eapply (c11_div_by_zero_returns Debug).
  - constructor; assumption.
  - constructor; reflexivity.
  - intros f; discriminate.
  - reflexivity.
  - unfold int_min. intros [= E]. exact (Hne E).
  - apply in_i64_iff in Hv. unfold num_of, den_of. simpl. unfold two63, two64 in *. lia.
Qed.
Print Assumptions c11_integer_by_zero.

Theorem c11_undefined_is_contagious m mode x y : api_number m x -> api_number m y ->
  exact_num x -> exact_num y -> undefined_fraction x \/ undefined_fraction y ->
  (forall z, sn_add mode x y = Ok z -> undefined_fraction z) /\
  (forall z, sn_sub mode x y = Ok z -> undefined_fraction z) /\
  (forall z, sn_is_zero x = false -> sn_is_zero y = false ->
             sn_mul mode x y = Ok z -> undefined_fraction z) /\
  (forall z, undefined_fraction x -> sn_neg mode x = Ok z -> undefined_fraction z).
Proof.
  intros Hx Hy Ex Ey Hu. apply api_number_ok in Hx, Hy.
  refine (conj _ (conj _ (conj _ _))); intros z.
  - apply undefined_add; assumption.
  - apply undefined_sub; assumption.
  - intros Zx Zy. apply undefined_mul; assumption.
  - intros U. apply undefined_neg; assumption.
Qed.
Print Assumptions c11_undefined_is_contagious.

Example c11_example : exists z, sn_div Debug (sn_of_i64 7) (sn_of_i64 0) = Ok z /\
  nval z = Rational (mkRat 1 1 0) /\ sn_div Debug (sn_of_i64 (- two63)) (sn_of_i64 0) = Panic.
Proof. eexists. split; [|split]; vm_compute; reflexivity. Qed.

(** ** C16: conversions *)
Theorem c16_from_i64 v : in_i64 v = true ->
  sn_to_i64 (sn_of_i64 v) = Some v /\
  (sn_is_zero (sn_of_i64 v) = true <-> v = 0) /\ (sn_is_one (sn_of_i64 v) = true <-> v = 1).
Proof.
  intros _. split; [reflexivity|].
  rewrite sn_is_zero_int, sn_is_one_int, !Z.eqb_eq. tauto.
Qed.
Print Assumptions c16_from_i64.

Theorem c16_from_f64 f : val_Q (nval (sn_of_f64 f)) = f_val f /\
  sn_to_f64 Debug (sn_of_f64 f) = Ok f /\ sn_to_f64 Release (sn_of_f64 f) = Ok f.
Proof. repeat split. Qed.
Print Assumptions c16_from_f64.

Theorem c16_from_u64 m v : in_u64 v = true -> m = Debug \/ m = Release ->
  exists x, sn_of_u64 m v = Ok x /\
    (v < two63 -> sn_to_i64 x = Some v) /\
    (two63 <= v -> sn_to_i64 x = Some (v - two64)).
Proof.
  intros Hv Hm. exists (sn_of_i64 (if v <? two63 then v else v - two64)).
  split; [apply sn_of_u64_val; [assumption|intros ->; destruct Hm; discriminate]|].
  rewrite sn_of_i64_to. destruct (Z.ltb_spec v two63); split; intros; try lia; reflexivity.
Qed.
Print Assumptions c16_from_u64.

Example c16_example : sn_of_u64 Debug 18446744073709551615 = Ok (sn_of_i64 (-1)).
Proof. reflexivity. Qed.

(** ** C17: sign *)
Theorem c17_sign m x q : api_number m x -> val_Q (nval x) = Some q ->
  ((0 < q)%Q -> sn_sign x = 1) /\ ((q < 0)%Q -> sn_sign x = -1).
Proof. intros Hx. apply sn_sign_spec. eapply api_number_ok; eauto. Qed.
Print Assumptions c17_sign.

Theorem c17_sign_integer v : sn_sign (sn_of_i64 v) = Z.sgn v.
Proof. reflexivity. Qed.
Print Assumptions c17_sign_integer.

(** of a float: 0 for NaN, otherwise the sign bit, also of zeros and infinities *)
Theorem c17_sign_float f : sn_sign (sn_of_f64 f) =
  match f with
  | S754_nan => 0
  | S754_zero neg | S754_infinity neg | S754_finite neg _ _ => if neg then -1 else 1
  end.
Proof. destruct f as [s|s| |s p e]; try destruct s; reflexivity. Qed.
Print Assumptions c17_sign_float.

Theorem c17_sign_of_zero_refuted :
  (exists x, sn_new_rational Debug (-1) 0 5 = Ok (Some x) /\ sn_is_zero x = true /\ sn_sign x = -1) /\
  (exists x, sn_new_rational Debug 1 0 5 = Ok (Some x) /\ sn_is_zero x = true /\ sn_sign x = 1) /\
  sn_sign (sn_of_f64 (S754_zero false)) = 1 /\ sn_sign (sn_of_f64 (S754_zero true)) = -1.
Proof.
  split; [eexists; split; [vm_compute; reflexivity|]; split; reflexivity|].
  split; [eexists; split; [vm_compute; reflexivity|]; split; reflexivity|].
  split; reflexivity.
Qed.
Print Assumptions c17_sign_of_zero_refuted.

Example c17_example : api_number Debug (sn_of_f64 f_PI) /\ sn_sign (sn_of_f64 f_PI) = 1.
Proof. split; [constructor; left; cbv; intuition discriminate|reflexivity]. Qed.
