(** * PropsSubNeg: subtraction is addition of the negation (C75) *)
From Coq Require Import ZArith QArith List String Bool Lia.
From Coq Require Import Floats.SpecFloat.
From Verif Require Import Base Float Rational SmartNum Ast Spec SpecF SpecMod BaseProofs RationalProofs NumProofs NumProofs2 FloatProofs ModProofs.
Import ListNotations.
Open Scope Z_scope.

Lemma bra_sign s mx ex lx prec emax : binary_round_aux prec emax (negb s) mx ex lx = SFopp (binary_round_aux prec emax s mx ex lx).
Proof.
  unfold binary_round_aux. destruct (shr_fexp _ _ _ _ _) as [mrs e']. destruct (shr_fexp _ _ _ _ _) as [mrs' e''].
  destruct (shr_m mrs'); try reflexivity. destruct (_ <=? _); reflexivity.
Qed.

Lemma mul_opp a b : f_mul (f_neg a) b = f_neg (f_mul a b).
Proof.
  unfold f_mul, f_neg. destruct a as [s|s| |s p e], b as [t|t| |t q k]; cbn [SFopp SFmul]; try reflexivity;
    rewrite <- ?negb_xorb_l; try reflexivity. apply bra_sign.
Qed.
Lemma div_opp a b : f_div (f_neg a) b = f_neg (f_div a b).
Proof.
  unfold f_div, f_neg. destruct a as [s|s| |s p e], b as [t|t| |t q k]; cbn [SFopp SFdiv]; try reflexivity;
    rewrite <- ?negb_xorb_l; try reflexivity.
  destruct (SFdiv_core_binary _ _ _ _ _ _) as [[m' e'] l']. apply bra_sign.
Qed.
Lemma of_Z_opp z : z <> 0 -> f_of_Z (- z) = f_neg (f_of_Z z).
Proof.
  intros N. unfold f_of_Z, binary_normalize, f_neg. destruct z as [|p|p]; [congruence| |];
  cbn [Z.opp]; unfold binary_round; destruct (shl_align _ _ _) as [m' e'].
  - change true with (negb false). apply bra_sign.
  - rewrite <- (bra_sign true). reflexivity.
Qed.

(** ** the values *)
Lemma cast_wrap m z c : m = Debug \/ m = Release -> cast_i64 m z = Ok c -> c = wrap_i64 z.
Proof.
  unfold cast_i64. destruct (in_i64 z) eqn:E; intros Hm.
  - intros [= <-]. apply (wrap_unique z z 0 E). lia.
  - destruct Hm as [-> | ->]; congruence.
Qed.

Lemma cross_sub_add m n d s a b b' v w : m = Debug \/ m = Release -> - two63 <= a < two63 ->
  rat_cross m n d s = Ok b -> rat_cross m n d (- s) = Ok b' ->
  i64_sub m a b = Ok v -> i64_add m a b' = Ok w -> v = w.
Proof.
  intros Hm Ha. unfold rat_cross. destruct (u64_mul m n d) as [p| | |]; try discriminate. cbn [bind].
  destruct (cast_i64 m p) as [c| | |]; try discriminate. cbn [bind]. unfold i64_mul, i64_sub, i64_add.
  destruct Hm as [-> | ->].
  - intros B B'. apply ovf_i64_exact in B as [-> _]; [|discriminate]. apply ovf_i64_exact in B' as [-> _]; [|discriminate].
    intros V W. apply ovf_i64_exact in V as [-> _]; [|discriminate]. apply ovf_i64_exact in W as [-> _]; [|discriminate]. ring.
  - assert (forall z y, ovf_i64 Release z = Ok y -> y = wrap_i64 z) as O.
    { intros z y. unfold ovf_i64. destruct (in_i64 z) eqn:E; intros [= <-]; [apply (wrap_unique z z 0 E); lia|reflexivity]. }
    intros B B' V W. apply O in B, B', V, W. subst.
    destruct (wrap_cong (c * s)) as [k1 E1]. destruct (wrap_cong (c * - s)) as [k2 E2]. rewrite E1, E2.
    destruct (wrap_cong (a + (c * - s + two64 * k2))) as [k3 E3].
    symmetry. apply (wrap_unique _ _ (k3 + k2 + k1)).
    + destruct (wrap_i64_range (a + (c * - s + two64 * k2))). apply in_i64_iff. lia.
    + rewrite E3. ring.
Qed.

Lemma rat_sub_add m x y d s : m = Debug \/ m = Release ->
  rat_sub m x y = Ok d -> rat_add m x (mkRat (- rsign y) (rnum y) (rden y)) = Ok s -> d = s.
Proof.
  intros Hm. unfold rat_sub, rat_add. cbn [rsign rnum rden].
  destruct (rat_cross m (rnum x) (rden y) (rsign x)) as [a| | |] eqn:Ea; try discriminate. cbn [bind].
  destruct (rat_cross m (rden x) (rnum y) (rsign y)) as [b| | |] eqn:Eb; try discriminate. cbn [bind].
  destruct (rat_cross m (rden x) (rnum y) (- rsign y)) as [b'| | |] eqn:Eb'; try discriminate. cbn [bind].
  destruct (i64_sub m a b) as [v| | |] eqn:Ev; try discriminate. cbn [bind].
  destruct (i64_add m a b') as [w| | |] eqn:Ew; try discriminate. cbn [bind].
  assert (- two63 <= a < two63) as Ha.
  { unfold rat_cross in Ea. apply bind_ok in Ea as (p & _ & Ea). apply bind_ok in Ea as (c & _ & Ea). exact (ovf_i64_ok _ _ _ Ea). }
  rewrite (cross_sub_add m _ _ _ _ _ _ _ _ Hm Ha Eb Eb' Ev Ew). congruence.
Qed.

Lemma neg_of_i64 m v r : m = Debug \/ m = Release -> in_i64 v = true -> v <> - two63 -> v <> 0 -> rat_of_i64 m v = Ok r ->
  rat_of_i64 m (- v) = Ok (mkRat (- rsign r) (rnum r) (rden r)).
Proof.
  intros Hm I N Z. apply in_i64_iff in I. unfold rat_of_i64, i64_abs.
  rewrite !ovf_i64_in by lia. cbn [bind]. rewrite !cast_u64_in by (unfold two63, two64 in *; lia). cbn [bind].
  intros [= <-]. cbn [rsign rnum rden]. rewrite Z.abs_opp. unfold i64_signum.
  destruct (Z.eqb_spec v 0); [contradiction|]. destruct (Z.eqb_spec (- v) 0); [lia|]. rewrite Z.sgn_opp. reflexivity.
Qed.

Lemma val_sub_add m a b nb d s : m = Debug \/ m = Release -> val_inv b -> b <> Integer (- two63) -> b <> Integer 0 ->
  val_neg m b = Ok nb -> val_sub m a b = Ok d -> val_add m a nb = Ok s -> d = s.
Proof.
  intros Hm I N Z. assert (forall f g, trap_unless m f g = Ok g) as T by (intros; unfold trap_unless; destruct Hm as [-> | ->]; reflexivity).
  destruct b as [j|j|j]; cbn [val_neg].
  - cbn in I. pose proof I as I'. apply in_i64_iff in I'. assert (j <> - two63) as N1 by congruence. assert (j <> 0) as N0 by congruence.
    unfold i64_neg. rewrite ovf_i64_in by lia. cbn [bind]. intros [= <-]. destruct a as [i|i|i]; cbn [val_sub val_add].
    + unfold i64_sub, i64_add, Z.sub. congruence.
    + intros D S. apply bind_ok in D as (y & Ey & D). apply bind_ok in D as (r & Er & D). injection D as <-.
      rewrite (neg_of_i64 m j y Hm I N1 N0 Ey) in S. cbn [bind] in S. apply bind_ok in S as (r' & Er' & S). injection S as <-.
      f_equal. exact (rat_sub_add m i y r r' Hm Er Er').
    + unfold m_of_Z, m_sub, m_add. repeat (rewrite T; cbn [bind]). rewrite of_Z_opp, f_sub_is_add_neg by assumption. congruence.
  - cbn in I. destruct I as [(Hs & _) Hz]. unfold rat_neg, i64_neg. rewrite ovf_i64_in by (unfold two63; lia). cbn [bind].
    intros [= <-]. destruct a as [i|i|i]; cbn [val_sub val_add].
    + intros D S. apply bind_ok in D as (y & Ey & D). apply bind_ok in D as (r & Er & D). injection D as <-.
      rewrite Ey in S. cbn [bind] in S. apply bind_ok in S as (r' & Er' & S). injection S as <-.
      f_equal. exact (rat_sub_add m y j r r' Hm Er Er').
    + intros D S. apply bind_ok in D as (r & Er & D). injection D as <-. apply bind_ok in S as (r' & Er' & S). injection S as <-.
      f_equal. exact (rat_sub_add m i j r r' Hm Er Er').
    + unfold rat_to_f64, m_of_Z, m_sub, m_add, m_mul, m_div. repeat (rewrite T; cbn [bind rsign rnum rden]). rewrite f_sub_is_add_neg.
      assert (rsign j = 0 \/ rsign j <> 0) as [E|E] by lia.
      * assert (rnum j = 0) as En by (destruct Hs as [?|[?|[_ ?]]]; lia).
        assert (rden j = 0) as Ed by (apply Hz; exact E). rewrite E, En, Ed. cbn. congruence.
      * rewrite of_Z_opp, mul_opp, div_opp by exact E. congruence.
  - intros [= <-]. destruct a as [i|i|i]; cbn [val_sub val_add].
    + unfold m_of_Z, m_sub, m_add. repeat (rewrite T; cbn [bind]). rewrite f_sub_is_add_neg. congruence.
    + unfold rat_to_f64, m_of_Z, m_sub, m_add, m_mul, m_div. repeat (rewrite T; cbn [bind]). rewrite f_sub_is_add_neg. congruence.
    + unfold m_sub, m_add. repeat (rewrite T; cbn [bind]). rewrite f_sub_is_add_neg. congruence.
Qed.

(** a fraction equal to -1 (its negation becomes the integer 1, another representation) *)
Definition minus_one_fraction (y : snum) : Prop := exists r, nval y = Rational r /\ rsign r = -1 /\ rnum r = rden r.

(** ** C75 x - y and x + (-y) are the same number, representation included *)
Theorem c75_sub_is_add_neg m x y n d s : real_build m -> api_number m x -> api_number m y ->
  ~ int_min y -> ~ minus_one_fraction y ->
  sn_neg m y = Ok n -> sn_sub m x y = Ok d -> sn_add m x n = Ok s -> d = s.
Proof.
  intros Hm Hx Hy Ni Nf. apply api_number_ok in Hx. apply api_number_ok in Hy.
  assert (forall b r, guard m b r = r) as G by (intros; unfold guard; destruct Hm as [-> | ->]; reflexivity).
  unfold sn_sub, sn_add. destruct (sn_is_zero x) eqn:Zx.
  { intros -> [= <-] [= <-]. reflexivity. }
  unfold sn_neg. rewrite !G. intros Hn. apply bind_ok in Hn as (nb & En & Hn). injection Hn as <-.
  destruct (sn_is_zero y) eqn:Zy.
  { rewrite (is_zero_val y Hy) in Zy. assert (val_is_zero nb = true) as V.
    { destruct Hy as [Iy _]. destruct (nval y) as [j|j|j]; cbn in *; try discriminate.
      - apply Z.eqb_eq in Zy. subst j. injection En as <-. reflexivity.
      - apply andb_prop in Zy as [A B]. unfold rat_neg in En. apply bind_ok in En as (r & En & E). injection E as <-.
        apply bind_ok in En as (t & _ & E). injection E as <-. cbn. now rewrite A. }
    unfold wrap_val. rewrite V. cbn. congruence. }
  rewrite (is_zero_val y Hy) in Zy. destruct Hy as [Iy _].
  assert (nval (wrap_val nb) = nb /\ sn_is_zero (wrap_val nb) = false) as [E0 E1].
  { destruct (nval y) as [j|j|j] eqn:Ey; cbn in En.
    - apply bind_ok in En as (t & En & E). injection E as <-. unfold i64_neg in En.
      cbn in Zy. apply Z.eqb_neq in Zy. cbn in Iy. apply in_i64_iff in Iy.
      assert (j <> - two63) as N1 by (intros ->; apply Ni; exact Ey). rewrite ovf_i64_in in En by lia. injection En as <-.
      unfold wrap_val. cbn. destruct (Z.eqb_spec (- j) 0); [lia|]. destruct (Z.eqb_spec (- j) 1) as [e|]; [|split; reflexivity].
      split; [cbn; now rewrite e|reflexivity].
    - apply bind_ok in En as (t & En & E). injection E as <-. unfold rat_neg in En. apply bind_ok in En as (u & Eu & En).
      injection En as <-. cbn in Zy, Iy. destruct Iy as [(Hs & _) _].
      unfold i64_neg in Eu. rewrite ovf_i64_in in Eu by (unfold two63; lia). injection Eu as <-.
      unfold wrap_val, val_is_zero, val_is_one. cbn [rsign rnum rden]. rewrite Zy.
      destruct ((- rsign j =? 1) && (rnum j =? rden j) && negb (rden j =? 0)) eqn:K; [|split; reflexivity].
      exfalso. apply Nf. exists j. apply andb_prop in K as [K _]. apply andb_prop in K as [K1 K2].
      apply Z.eqb_eq in K1, K2. repeat split; [exact Ey|lia|exact K2].
    - injection En as <-. split; reflexivity. }
  rewrite E0, E1. intros Hd Hs. apply bind_ok in Hd as (v & Ev & Hd). apply bind_ok in Hs as (w & Ew & Hs).
  injection Hd as <-. injection Hs as <-. f_equal.
  refine (val_sub_add m (nval x) (nval y) nb v w Hm Iy _ _ En Ev Ew).
  - intros E. apply Ni. exact E.
  - intros E. rewrite E in Zy. discriminate.
Qed.
Print Assumptions c75_sub_is_add_neg.

(** the two exceptions are real: x - i64::MIN in release builds differs by 2^64, and an integer minus the fraction
    -2/2 is a fraction, while adding its negation gives an integer *)
Theorem c75_int_min_refuted : exists x y n d s, api_number Release x /\ api_number Release y /\
  sn_neg Release y = Ok n /\ sn_sub Release x y = Ok d /\ sn_add Release x n = Ok s /\ sn_sign d = 1 /\ sn_sign s = -1.
Proof.
  exists (sn_of_f64 f_one), (sn_of_i64 (- two63)). do 3 eexists.
  split; [apply An_f64; left; split; split; vm_compute; congruence|]. split; [apply An_i64; reflexivity|].
  repeat split; vm_compute; reflexivity.
Qed.
Print Assumptions c75_int_min_refuted.
Theorem c75_representation_refuted : exists x y n d s, api_number Debug x /\ api_number Debug y /\
  sn_neg Debug y = Ok n /\ sn_sub Debug x y = Ok d /\ sn_add Debug x n = Ok s /\ d <> s /\ oQeq (exact_Q d) (exact_Q s).
Proof.
  exists (sn_of_i64 5), (mkNum (Rational (mkRat (-1) 2 2)) TNothing). do 3 eexists.
  split; [apply An_i64; reflexivity|]. split; [apply (An_rational _ (-1) 2 2); vm_compute; reflexivity|].
  split; [vm_compute; reflexivity|]. split; [vm_compute; reflexivity|]. split; [vm_compute; reflexivity|].
  split; [discriminate|]. vm_compute. reflexivity.
Qed.
Print Assumptions c75_representation_refuted.

(** the hypotheses are met by 1/2 - 0.25 *)
Example c75_example : exists x n d, sn_new_rational Debug 1 1 2 = Ok (Some x) /\
  sn_neg Debug (sn_of_f64 (S754_finite false 4503599627370496 (-54))) = Ok n /\
  sn_sub Debug x (sn_of_f64 (S754_finite false 4503599627370496 (-54))) = Ok d /\ sn_add Debug x n = Ok d.
Proof. do 3 eexists. repeat split; vm_compute; reflexivity. Qed.
