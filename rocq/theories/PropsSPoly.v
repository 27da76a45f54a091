(** * PropsSPoly: accuracy of simplification, derivatives and Taylor expansions of polynomials
    with floating-point coefficients of any sign (C93) *)
From Coq Require Import ZArith QArith List String Bool Lia Lra Psatz.
From Coq Require Import Reals Qreals.
From Coquelicot Require Import Coquelicot.
From Coq Require Import Floats.SpecFloat.
From Flocq Require Import Core BinarySingleNaN Relative.
From Verif Require Import Base Float Rational SmartNum Ast Compute Spec SpecTree SpecR SpecF SpecAcc SpecHeight SpecMixed SpecFPoly SpecSPoly.
From Verif Require Import BaseProofs RationalProofs NumProofs NumProofs2 FloatProofs FloatNum FloatNum2 ConstProofs TreeProofs TreeProofs2 TreeProofs3 RealProofs RealDeriv IntProofs ExactProofs PropsHeight PropsAcc PropsMixed PropsFPoly PropsTree TreeProofs5.
Import ListNotations.
Open Scope R_scope.

(** ** multiples of 2^-E: rounding to f64 keeps them *)
Definition mult (E : nat) (r : R) : Prop := exists k : Z, r = IZR k * / 2 ^ E.

Lemma mult_format E r : mult E r <-> generic_format radix2 (FIX_exp (- Z.of_nat E)) r.
Proof.
  split.
  - intros (k & ->). apply generic_format_FIX. exists (Float radix2 k (- Z.of_nat E)); [|reflexivity].
    unfold F2R. cbn. rewrite bpow_neg. reflexivity.
  - intros H. apply FIX_format_generic in H as [[k x] E1 E2]. cbn in E2. subst x. exists k. rewrite E1. unfold F2R. cbn. rewrite bpow_neg. reflexivity.
Qed.
Lemma mult_le E E' r : (E <= E')%nat -> mult E r -> mult E' r.
Proof.
  intros L (k & ->). exists (k * 2 ^ Z.of_nat (E' - E))%Z. rewrite mult_IZR, <- pow_IZR.
  replace E' with (E + (E' - E))%nat at 2 by lia. rewrite pow_add. pose proof (pow2_pos E). pose proof (pow2_pos (E' - E)). field. lra.
Qed.
Lemma mult_int E z : mult E (IZR z).
Proof. apply (mult_le 0 E); [lia|]. exists z. cbn. field. Qed.
Lemma mult_add E x y : mult E x -> mult E y -> mult E (x + y).
Proof. intros (i & ->) (j & ->). exists (i + j)%Z. rewrite plus_IZR. ring. Qed.
Lemma mult_opp E x : mult E x -> mult E (- x).
Proof. intros (i & ->). exists (- i)%Z. rewrite opp_IZR. ring. Qed.
Lemma mult_mul E E' x y : mult E x -> mult E' y -> mult (E + E') (x * y).
Proof. intros (i & ->) (j & ->). exists (i * j)%Z. rewrite mult_IZR, pow_add, Rinv_mult. ring. Qed.
Lemma mult_big E x : mult E x -> x <> 0 -> / 2 ^ E <= Rabs x.
Proof.
  intros (k & ->) N. pose proof (ipow2_pos E) as P. rewrite Rabs_mult, (Rabs_pos_eq (/ 2 ^ E)) by lra.
  assert (k <> 0)%Z as K by (intros ->; apply N; ring). rewrite <- abs_IZR.
  assert (1 <= IZR (Z.abs k)) by (apply (IZR_le 1); lia). nra.
Qed.
Lemma f64_format f : is_f64 f -> f_finite f -> generic_format radix2 (SpecFloat.fexp 53 1024) (fR f) /\ Rabs (fR f) < bpow radix2 1024.
Proof.
  intros I1 F. rewrite <- (toB_SF f I1), fR_B2R. split; [apply generic_format_B2R|apply abs_B2R_lt_emax].
Qed.

Lemma round_mult r f E : rounds_to r f -> Rabs r <= 2 ^ 1000 -> mult E r -> mult E (fR f).
Proof.
  intros R L M. pose proof big_pow as BP. destruct R as (I1 & R & _). destruct (R ltac:(lra)) as [F N]. clear R.
  destruct (f64_format f I1 F) as [G _].
  assert (Rnd_N_pt (generic_format radix2 (SpecFloat.fexp 53 1024)) r (fR f)) as NP.
  { split; [exact G|]. intros g Hg. destruct (Rlt_le_dec (Rabs g) (bpow radix2 1024)) as [Lg|Lg].
    - destruct (format_f64 g Hg Lg) as (g' & Ig & Fg & <-). apply (N g' Ig Fg).
    - apply Rle_trans with (Rabs r).
      + destruct (pow2_f64 0 ltac:(lia)) as (o & Io & Fo & Eo). clear o Io Fo Eo.
        destruct (f_of_Z_exact_small 0 ltac:(lia)) as [F0 E0]. destruct (N (f_of_Z 0) (f_of_Z_is 0) F0) as [K _].
        rewrite E0 in K. replace (IZR 0 - r) with (- r) in K by (cbn; ring). rewrite Rabs_Ropp in K. exact K.
      + assert (2 * 2 ^ 1000 <= bpow radix2 1024) as K.
        { change 1024%Z with (Z.of_nat 1024). rewrite bpow_nat. replace (2 * 2 ^ 1000) with (2 ^ 1001) by (rewrite <- tech_pow_Rmult; reflexivity). apply pow2_le. lia. }
        apply Rle_trans with (Rabs g - Rabs r); [lra|]. pose proof (Rabs_triang_inv g r). lra. }
  apply mult_format. apply mult_format in M.
  assert (Valid_exp (SpecFloat.fexp 53 1024)) as VE by (apply FLT_exp_valid; reflexivity).
  destruct (generic_N_pt_DN_or_UP radix2 (SpecFloat.fexp 53 1024) r (fR f) NP) as [D|D]; rewrite D.
  - apply generic_round_generic; auto with typeclass_instances.
  - apply generic_round_generic; auto with typeclass_instances.
Qed.

Lemma good_one k : good k 1. Proof. apply (good_le 0 k); [lia|apply good_0]. Qed.

Lemma srange r f E q : rounds_to r f -> (E <= 1000)%nat -> (q <= 1000)%nat -> mult E r -> Rabs r <= 2 ^ q ->
  is_f64 f /\ f_finite f /\ mult E (fR f) /\ Rabs (fR f) <= 2 ^ q /\ exists t, good 1 t /\ fR f = r * t.
Proof.
  intros R HE Hq M H. pose proof big_pow as BP. pose proof (pow2_le q 1000 Hq) as Lq. pose proof (pow2_pos q) as Pq.
  pose proof (round_mult r f E R ltac:(lra) M) as Mf.
  assert (Rabs (fR f) <= 2 ^ q) as Bf.
  { destruct (pow2_f64 (Z.of_nat q)) as (hi & Ih & Fh & Eh); [lia|]. rewrite bpow_nat in Eh.
    assert (fR (f_neg hi) <= fR f <= fR hi) as K.
    { apply (rounds_to_between r f _ _ R); auto; [lra|apply f_neg_is, Ih|apply f_neg_finite, Fh|].
      rewrite fR_neg, Eh. apply Rabs_le_between in H. lra. }
    rewrite fR_neg, Eh in K. apply Rabs_le. lra. }
  split; [apply R|]. split; [apply R; lra|]. split; [exact Mf|]. split; [exact Bf|].
  destruct (Req_dec r 0) as [-> |Nz].
  - exists 1. split; [apply good_one|]. destruct (f_of_Z_exact_small 0 ltac:(lia)) as [F0 E0].
    rewrite (proj2 (rounds_to_exact 0 f (f_of_Z 0) R (f_of_Z_is 0) F0 E0)). ring.
  - pose proof (mult_big E r M Nz) as Lo. pose proof (ipow2_le E 1000 HE). pose proof (ipow2_pos 1000).
    destruct (round_good r f R ltac:(lra) ltac:(lra)) as (_ & _ & G). exact G.
Qed.

(** ** numbers of the class *)
Notation st n := (fR (val_f64 (nval n))).
Definition snice (E q : nat) (n : snum) (v : R) : Prop :=
  num_R n = Some v /\ num_ok n /\ val_valid (nval n) /\ (intnum n \/ f64_backed n) /\ f_finite (val_f64 (nval n)) /\
  (exists t, good 1 t /\ st n = v * t) /\ mult E (st n) /\ Rabs v <= 2 ^ q /\ Rabs (st n) <= 2 ^ q.

Lemma snice_le E q E' q' n v : (E <= E')%nat -> (q <= q')%nat -> snice E q n v -> snice E' q' n v.
Proof.
  intros HE Hq (A & O1 & V & T & F & G & M & Bv & Bs). pose proof (pow2_le q q' Hq).
  repeat split; auto; try lra; try apply O1. apply (mult_le E E'); auto.
Qed.
Lemma snice_int E q z : (E <= 1000)%nat -> (q <= 1000)%nat -> in_i64 z = true -> Rabs (IZR z) <= 2 ^ q -> snice E q (sn_of_i64 z) (IZR z).
Proof.
  intros HE Hq I1 H. destruct (srange (IZR z) (f_of_Z z) E q (f_of_Z_rounds z) HE Hq (mult_int E z) H) as (Iz & Fz & Mz & Bz & G).
  assert (num_ok (sn_of_i64 z)) as O1 by (apply (api_number_ok Debug), An_i64, I1).
  split; [apply num_R_int|]. split; [exact O1|]. split; [exact I|]. split; [left; exists z; auto|]. auto.
Qed.
Lemma snice_real E q w f : (E <= 1000)%nat -> (q <= 1000)%nat -> rounds_to w f -> mult E w -> Rabs w <= 2 ^ q ->
  snice E q (mkNum (Real f) TNothing) (fR f) /\ exists t, good 1 t /\ fR f = w * t.
Proof.
  intros HE Hq R M W. destruct (srange w f E q R HE Hq M W) as (I1 & F & Mf & Bf & G). split; [|exact G].
  assert (num_ok (mkNum (Real f) TNothing)) as O1 by (apply (api_number_ok Debug _ (An_f64 Debug f I1))).
  split; [apply num_R_real, F|]. split; [exact O1|]. split; [exact I1|]. split; [right; exists f; reflexivity|]. split; [exact F|].
  split; [|auto]. exists 1. split; [apply good_one|cbn; ring].
Qed.
Lemma snice_intnum E q z v : (E <= 1000)%nat -> (q <= 1000)%nat -> intnum z -> num_R z = Some v -> Rabs v <= 2 ^ q -> snice E q z v.
Proof. intros HE Hq (y & I1 & ->) H V. rewrite num_R_int in H. injection H as <-. apply snice_int; auto. Qed.

(** errors *)
Definition amp (k : nat) : R := / (1 - u) ^ k.
Lemma amp_ge1 k : 1 <= amp k.
Proof.
  pose proof u_small. unfold amp. assert (0 < (1 - u) ^ k) by (apply pow_lt; lra).
  apply Rle_trans with (/ 1); [rewrite Rinv_1; lra|]. apply Rinv_le_contravar; [assumption|].
  apply Rle_trans with (1 ^ k); [apply pow_incr; lra|rewrite pow1; lra].
Qed.
Lemma amp_add i j : amp (i + j) = amp i * amp j.
Proof. unfold amp. rewrite pow_add, Rinv_mult. reflexivity. Qed.
Lemma amp_le i j : (i <= j)%nat -> amp i <= amp j.
Proof. intros L. replace j with (i + (j - i))%nat by lia. rewrite amp_add. pose proof (amp_ge1 i). pose proof (amp_ge1 (j - i)). nra. Qed.
Lemma good_amp k t : good k t -> Rabs (t - 1) <= amp k - 1.
Proof.
  intros [A C]. pose proof (amp_ge1 k) as P. fold (amp k) in C. apply Rabs_le.
  assert ((1 - u) ^ k * amp k = 1) by (unfold amp; apply Rinv_r; pose proof u_small; apply Rgt_not_eq, pow_lt; lra).
  split; [|lra]. assert (0 <= (1 - u) ^ k) by (apply pow_le; pose proof u_small; lra). nra.
Qed.

(** v*s + w*t against v + w *)
Lemma err_sum k v w s t : good k s -> good k t -> Rabs (v * s + w * t - (v + w)) <= (amp k - 1) * (Rabs v + Rabs w).
Proof.
  intros Gs Gt. apply good_amp in Gs, Gt. replace (v * s + w * t - (v + w)) with (v * (s - 1) + w * (t - 1)) by ring.
  apply Rle_trans with (1 := Rabs_triang _ _). rewrite !Rabs_mult. pose proof (Rabs_pos v). pose proof (Rabs_pos w). nra.
Qed.
Lemma err_one k v t : good k t -> Rabs (v * t - v) <= (amp k - 1) * Rabs v.
Proof.
  intros G. apply good_amp in G. replace (v * t - v) with (v * (t - 1)) by ring. rewrite Rabs_mult. pose proof (Rabs_pos v). nra.
Qed.
Lemma err_0 k v M : 0 <= M -> Rabs (v - v) <= (amp k - 1) * M.
Proof. intros P. rewrite Rminus_diag_eq, Rabs_R0 by reflexivity. pose proof (amp_ge1 k). nra. Qed.
Lemma err_le i k x M : (i <= k)%nat -> 0 <= M -> Rabs x <= (amp i - 1) * M -> Rabs x <= (amp k - 1) * M.
Proof. intros L P H. pose proof (amp_le i k L). nra. Qed.

Lemma pos_abs2 v w : 0 <= Rabs v + Rabs w. Proof. pose proof (Rabs_pos v). pose proof (Rabs_pos w). lra. Qed.

Lemma snice_neg E q n v z : (E <= 1000)%nat -> (q <= 1000)%nat -> snice E q n v -> sn_neg Debug n = Ok z ->
  exists r, snice E q z r /\ Rabs (r - - v) <= (amp 1 - 1) * Rabs v.
Proof.
  intros HE Hq (A & O1 & V & T & F & (t & G & Et) & M & Bv & Bs) E1. destruct T as [T|(f & Ef)].
  - destruct (sn_neg_DS n z T E1) as [S Iz]. pose proof (num_R_neg n z v O1 S A) as Rz. exists (- v).
    split; [apply snice_intnum; auto; rewrite Rabs_Ropp; exact Bv|apply err_0, Rabs_pos].
  - unfold sn_neg in E1. rewrite guard_real in E1 by (left; reflexivity). rewrite Ef in *. cbn [val_neg bind] in E1. injection E1 as <-.
    rewrite wrap_real. cbn [val_f64] in *. exists (fR (f_neg f)).
    destruct (snice_real E q (fR (f_neg f)) (f_neg f) HE Hq) as [N _].
    + apply rounds_to_self; [apply f_neg_is, V|apply f_neg_finite, F].
    + rewrite fR_neg. apply mult_opp, M.
    + rewrite fR_neg, Rabs_Ropp. exact Bs.
    + split; [exact N|]. rewrite fR_neg, Et. replace (- (v * t) - - v) with (- (v * t - v)) by ring. rewrite Rabs_Ropp. apply err_one, G.
Qed.

Lemma snice_add E q n k v w z : (E <= 1000)%nat -> (q <= 999)%nat -> snice E q n v -> snice E q k w -> sn_add Debug n k = Ok z ->
  exists r, snice E (S q) z r /\ Rabs (r - (v + w)) <= (amp 3 - 1) * (Rabs v + Rabs w).
Proof.
  intros HE Hq Hn Hk H. pose proof (or_introl eq_refl : real_build Debug) as HD.
  pose proof Hn as (A & O1 & V & T & F & (t & G & Et) & M & Bv & Bs). pose proof Hk as (A' & O1' & V' & T' & F' & (t' & G' & Et') & M' & Bv' & Bs').
  destruct (sn_is_zero n) eqn:Zn.
  { unfold sn_add in H. rewrite Zn in H. injection H as <-. exists w. rewrite (num_R_zero n v O1 Zn A).
    split; [apply (snice_le E q); auto|]. rewrite Rplus_0_l. apply err_0, pos_abs2. }
  destruct (sn_is_zero k) eqn:Zk.
  { unfold sn_add in H. rewrite Zn, Zk in H. injection H as <-. exists v. rewrite (num_R_zero k w O1' Zk A').
    split; [apply (snice_le E q); auto|]. rewrite Rplus_0_r. apply err_0, pos_abs2. }
  assert (f64_backed n \/ f64_backed k \/ (intnum n /\ intnum k)) as [B|[B|[Bn Bk]]] by (destruct T, T'; auto).
  1,2: (assert (f64_backed n \/ f64_backed k) as B' by auto;
    destruct (sn_add_rounds Debug HD n k O1 O1' V V' B' F F') as (z' & c & Ez & Ec & R);
    rewrite Ez in H; injection H as ->;
    rewrite sn_to_f64_eq in Ec by (left; reflexivity); injection Ec as <-;
    unfold sn_add in Ez; rewrite Zn, Zk, guard_real, (val_add_real Debug _ _ HD (backed_real _ _ B')) in Ez by exact HD; cbn [bind] in Ez; injection Ez as <-;
    rewrite wrap_real in *; cbn [nval val_f64] in R;
    destruct (snice_real E (S q) _ _ HE ltac:(lia) R (mult_add E _ _ M M')) as (N & s & Gs & Es);
    [pose proof (Rabs_triang (st n) (st k)); cbn [pow]; lra|];
    exists (fR (f_add (val_f64 (nval n)) (val_f64 (nval k))));
    split; [exact N|];
    rewrite Es, Et, Et'; replace ((v * t + w * t') * s) with (v * (t * s) + w * (t' * s)) by ring;
    apply (err_le 2 3); [lia|apply pos_abs2|]; apply (err_sum 2); [exact (good_mul 1 1 _ _ G Gs)|exact (good_mul 1 1 _ _ G' Gs)]).
  destruct (sn_op_DS OAdd n k z Bn Bk ltac:(discriminate) ltac:(auto) H) as [S Iz]. cbn [sn_op] in S.
  pose proof (num_R_add n k z v w O1 O1' S A A') as Rz. exists (v + w).
  split; [apply snice_intnum; auto; [lia|]; pose proof (Rabs_triang v w); cbn [pow]; lra|apply err_0, pos_abs2].
Qed.

Lemma snice_sub E q n k v w z : (E <= 1000)%nat -> (q <= 999)%nat -> snice E q n v -> snice E q k w -> sn_sub Debug n k = Ok z ->
  exists r, snice E (S q) z r /\ Rabs (r - (v - w)) <= (amp 3 - 1) * (Rabs v + Rabs w).
Proof.
  intros HE Hq Hn Hk H. pose proof (or_introl eq_refl : real_build Debug) as HD.
  pose proof Hn as (A & O1 & V & T & F & (t & G & Et) & M & Bv & Bs). pose proof Hk as (A' & O1' & V' & T' & F' & (t' & G' & Et') & M' & Bv' & Bs').
  destruct (sn_is_zero n) eqn:Zn.
  { unfold sn_sub in H. rewrite Zn in H. rewrite (num_R_zero n v O1 Zn A).
    destruct (snice_neg E q k w z HE ltac:(lia) Hk H) as (r & N & Er). exists r. split; [apply (snice_le E q); auto|].
    rewrite Rminus_0_l, Rabs_R0, Rplus_0_l. apply (err_le 1 3); [lia|apply Rabs_pos|exact Er]. }
  destruct (sn_is_zero k) eqn:Zk.
  { unfold sn_sub in H. rewrite Zn, Zk in H. injection H as <-. exists v. rewrite (num_R_zero k w O1' Zk A').
    split; [apply (snice_le E q); auto|]. rewrite Rminus_0_r. apply err_0, pos_abs2. }
  assert (f64_backed n \/ f64_backed k \/ (intnum n /\ intnum k)) as [B|[B|[Bn Bk]]] by (destruct T, T'; auto).
  1,2: (assert (f64_backed n \/ f64_backed k) as B' by auto;
    destruct (sn_sub_rounds Debug HD n k O1 O1' V V' B' F F') as (z' & c & Ez & Ec & R);
    rewrite Ez in H; injection H as ->;
    rewrite sn_to_f64_eq in Ec by (left; reflexivity); injection Ec as <-;
    unfold sn_sub in Ez; rewrite Zn, Zk, guard_real, (val_sub_real Debug _ _ HD (backed_real _ _ B')) in Ez by exact HD; cbn [bind] in Ez; injection Ez as <-;
    rewrite wrap_real in *; cbn [nval val_f64] in R;
    destruct (snice_real E (S q) _ _ HE ltac:(lia) R (mult_add E _ _ M (mult_opp E _ M'))) as (N & s & Gs & Es);
    [pose proof (Rabs_triang (st n) (- st k)); rewrite (Rabs_Ropp (st k)) in *; cbn [pow]; unfold Rminus; lra|];
    exists (fR (f_sub (val_f64 (nval n)) (val_f64 (nval k))));
    split; [exact N|];
    rewrite Es, Et, Et'; replace ((v * t - w * t') * s) with (v * (t * s) + (- w) * (t' * s)) by ring; rewrite <- (Rabs_Ropp w);
    apply (err_le 2 3); [lia|apply pos_abs2|]; apply (err_sum 2); [exact (good_mul 1 1 _ _ G Gs)|exact (good_mul 1 1 _ _ G' Gs)]).
  destruct (sn_op_DS OSub n k z Bn Bk ltac:(discriminate) ltac:(auto) H) as [S Iz]. cbn [sn_op] in S.
  pose proof (num_R_sub n k z v w O1 O1' S A A') as Rz. exists (v - w).
  split; [apply snice_intnum; auto; [lia|]; pose proof (Rabs_triang v (- w)); rewrite (Rabs_Ropp w) in *; cbn [pow]; unfold Rminus; lra|apply err_0, pos_abs2].
Qed.

Lemma snice_mul E q E' q' n k v w z : (E + E' <= 1000)%nat -> (q + q' <= 1000)%nat -> snice E q n v -> snice E' q' k w -> sn_mul Debug n k = Ok z ->
  exists r, snice (E + E') (q + q') z r /\ Rabs (r - v * w) <= (amp 3 - 1) * (Rabs v * Rabs w).
Proof.
  intros HE Hq Hn Hk H. pose proof (or_introl eq_refl : real_build Debug) as HD.
  pose proof Hn as (A & O1 & V & T & F & (t & G & Et) & M & Bv & Bs). pose proof Hk as (A' & O1' & V' & T' & F' & (t' & G' & Et') & M' & Bv' & Bs').
  assert (0 <= Rabs v * Rabs w) as P by (apply Rmult_le_pos; apply Rabs_pos).
  destruct (sn_is_one n) eqn:Zn.
  { unfold sn_mul in H. rewrite Zn in H. injection H as <-. exists w. rewrite (num_R_one n v O1 Zn A) in *.
    split; [apply (snice_le E' q'); auto; lia|]. rewrite Rmult_1_l. apply err_0, P. }
  destruct (sn_is_one k) eqn:Zk.
  { unfold sn_mul in H. rewrite Zn, Zk in H. injection H as <-. exists v. rewrite (num_R_one k w O1' Zk A') in *.
    split; [apply (snice_le E q); auto; lia|]. rewrite Rmult_1_r. apply err_0, P. }
  pose proof H as H0. unfold sn_mul in H. rewrite Zn, Zk, guard_real in H by (left; reflexivity). inv_bind H. injection H as <-.
  destruct (val_is_zero (nval n) || val_is_zero (nval k)) eqn:Z0.
  { unfold val_mul in Hb. rewrite Z0 in Hb. injection Hb as <-. exists 0.
    split; [apply (snice_int _ _ 0); auto; rewrite Rabs_R0; apply Rlt_le, pow2_pos|].
    assert (v * w = 0) as ->; [|apply err_0, P].
    apply orb_prop in Z0 as [Z0|Z0]; apply val_zero_f64 in Z0 as [_ Z0]; try apply O1; try apply O1'.
    - rewrite Z0 in Et. pose proof (good_pos _ _ G). assert (v = 0) as -> by nra. ring.
    - rewrite Z0 in Et'. pose proof (good_pos _ _ G'). assert (w = 0) as -> by nra. ring. }
  assert (forall x y, Rabs x <= 2 ^ q -> Rabs y <= 2 ^ q' -> Rabs (x * y) <= 2 ^ (q + q')) as MR.
  { intros x y X Y. rewrite Rabs_mult, pow_add. apply Rmult_le_compat; auto; apply Rabs_pos. }
  assert (f64_backed n \/ f64_backed k \/ (intnum n /\ intnum k)) as [B|[B|[Bn Bk]]] by (destruct T, T'; auto).
  1,2: (assert (f64_backed n \/ f64_backed k) as B' by auto;
    destruct (sn_mul_rounds Debug HD n k O1 O1' V V' B' F F') as (z' & c & Ez & Ec & R);
    rewrite H0 in Ez; injection Ez as <-;
    rewrite sn_to_f64_eq in Ec by (left; reflexivity); injection Ec as <-;
    apply orb_false_elim in Z0 as [Z1 Z2];
    rewrite (val_mul_real Debug _ _ HD (backed_real _ _ B') Z1 Z2) in Hb; injection Hb as <-;
    rewrite wrap_real in *; cbn [nval val_f64] in R;
    destruct (snice_real (E + E') (q + q') _ _ HE Hq R (mult_mul E E' _ _ M M') (MR _ _ Bs Bs')) as (N & s & Gs & Es);
    exists (fR (f_mul (val_f64 (nval n)) (val_f64 (nval k))));
    split; [exact N|];
    rewrite Es, Et, Et'; replace (v * t * (w * t') * s) with (v * w * (t * t' * s)) by ring; rewrite <- Rabs_mult;
    apply err_one; exact (good_mul 2 1 _ s (good_mul 1 1 t t' G G') Gs)).
  destruct (sn_op_DS OMul n k _ Bn Bk ltac:(discriminate) ltac:(auto) H0) as [S Iz]. cbn [sn_op] in S.
  pose proof (num_R_mul n k _ v w O1 O1' S A A') as Rz. exists (v * w).
  split; [apply snice_intnum; auto|apply err_0, P].
Qed.

(** ** jets with signs, and the jets of the size ([s] = true) *)
Definition subS (a b : jet_t) : jet_t := fun k => a k - b k.
Definition negS (a : jet_t) : jet_t := fun k => - a k.
Fixpoint gj (s : bool) (rho : string -> R) (x : string) (e : expr) : jet_t :=
  match e with
  | Expr r c =>
      match r with
      | Operand (Num n) => cstS (match num_R n with Some v => if s then Rabs v else v | None => 0 end)
      | Operand (Var y) => if String.eqb y x then varS (rho y) else cstS (rho y)
      | Operator op =>
          match map (gj s rho x) c with
          | [a] => match descriptor op with ONeg => if s then a else negS a | _ => cstS 0 end
          | [a; b] => match descriptor op with OAdd => addS a b | OSub => if s then addS a b else subS a b | OMul => mulS a b | _ => cstS 0 end
          | _ => cstS 0
          end
      end
  end.
Lemma gj_neg s rho x a : gj s rho x (e_neg a) = if s then gj s rho x a else negS (gj s rho x a). Proof. reflexivity. Qed.
Lemma gj_add s rho x a b : gj s rho x (e_add a b) = addS (gj s rho x a) (gj s rho x b). Proof. reflexivity. Qed.
Lemma gj_sub s rho x a b : gj s rho x (e_sub a b) = if s then addS (gj s rho x a) (gj s rho x b) else subS (gj s rho x a) (gj s rho x b). Proof. reflexivity. Qed.
Lemma gj_mul s rho x a b : gj s rho x (e_mul a b) = mulS (gj s rho x a) (gj s rho x b). Proof. reflexivity. Qed.
Lemma gj_num s rho x n v : num_R n = Some v -> gj s rho x (e_num n) = cstS (if s then Rabs v else v).
Proof. intros E. cbn [gj e_num]. rewrite E. reflexivity. Qed.
Lemma gj_zero s rho x k : gj s rho x e_zero k = 0.
Proof. change e_zero with (e_num (sn_of_i64 0)). rewrite (gj_num s rho x _ 0 (num_R_int 0)). destruct s, k; cbn [cstS]; rewrite ?Rabs_R0; reflexivity. Qed.
Lemma gj_one s rho x : gj s rho x e_one = cstS 1.
Proof. change e_one with (e_num (sn_of_i64 1)). rewrite (gj_num s rho x _ 1 (num_R_int 1)). destruct s; rewrite ?Rabs_R1; reflexivity. Qed.

(** what an operation does to the two jets *)
Definition j2 (t : optype) (s : bool) (a b : jet_t) : jet_t :=
  match t with OAdd => addS a b | OSub => if s then addS a b else subS a b | _ => mulS a b end.

(** [a] within [A] *)
Definition dom (a A : jet_t) : Prop := forall n, Rabs (a n) <= A n.
Lemma dom_nn a A : dom a A -> nn A. Proof. intros H k. specialize (H k). pose proof (Rabs_pos (a k)). lra. Qed.
Lemma dom_sh a A : dom a A -> dom (sh a) (sh A). Proof. intros H k. apply (H (S k)). Qed.
Lemma dom_add a A b M : dom a A -> dom b M -> dom (addS a b) (addS A M).
Proof. intros H K n. specialize (H n). specialize (K n). unfold addS. pose proof (Rabs_triang (a n) (b n)). lra. Qed.
Lemma dom_neg a A : dom a A -> dom (negS a) A.
Proof. intros H n. unfold negS. rewrite Rabs_Ropp. apply H. Qed.
Lemma dom_sub a A b M : dom a A -> dom b M -> dom (subS a b) (addS A M).
Proof. intros H K. apply (dom_add a A (negS b) M H (dom_neg b M K)). Qed.
Lemma dom_mul a A b M : dom a A -> dom b M -> dom (mulS a b) (mulS A M).
Proof.
  intros H K n. revert a A b M H K. induction n as [|n IH]; intros a A b M H K; cbn [mulS].
  - rewrite Rabs_mult. apply Rmult_le_compat; try apply Rabs_pos; auto.
  - pose proof (IH _ _ _ _ (dom_sh a A H) K). pose proof (IH _ _ _ _ H (dom_sh b M K)).
    pose proof (Rabs_triang (mulS (sh a) b n) (mulS a (sh b) n)). lra.
Qed.

(** [b] of size [M] is [a] of size [A] up to [k] roundings *)
Definition near_j (k : nat) (a A b M : jet_t) : Prop :=
  forall n, Rabs (b n - a n) <= (amp k - 1) * A n /\ M n <= amp k * A n.
Lemma nj_refl k a A b M : nn A -> (forall n, b n = a n) -> (forall n, M n = A n) -> near_j k a A b M.
Proof. intros N E1 E2 n. rewrite E1, E2. split; [apply err_0, N|]. specialize (N n). pose proof (amp_ge1 k). nra. Qed.
Lemma nj_le i k a A b M : (i <= k)%nat -> nn A -> near_j i a A b M -> near_j k a A b M.
Proof.
  intros L N H n. destruct (H n) as [P Q]. specialize (N n). pose proof (amp_le i k L). split; [apply (err_le i k); auto|nra].
Qed.
Lemma nj_trans i j a A b M c C : nn A -> near_j i a A b M -> near_j j b M c C -> near_j (i + j) a A c C.
Proof.
  intros N H K n. destruct (H n) as [P Q]. destruct (K n) as [P' Q']. specialize (N n). rewrite amp_add.
  pose proof (amp_ge1 i). pose proof (amp_ge1 j). split.
  - replace (c n - a n) with ((c n - b n) + (b n - a n)) by ring. apply Rle_trans with (1 := Rabs_triang _ _).
    assert ((amp j - 1) * M n <= (amp j - 1) * (amp i * A n)) by (apply Rmult_le_compat_l; lra). nra.
  - apply Rle_trans with (1 := Q'). replace (amp i * amp j * A n) with (amp j * (amp i * A n)) by ring. apply Rmult_le_compat_l; lra.
Qed.
Lemma nj_sh k a A b M : near_j k a A b M -> near_j k (sh a) (sh A) (sh b) (sh M). Proof. intros H n. apply (H (S n)). Qed.
Lemma nj_neg k a A b M : near_j k a A b M -> near_j k (negS a) A (negS b) M.
Proof. intros H n. destruct (H n) as [P Q]. split; [|exact Q]. unfold negS. replace (- b n - - a n) with (- (b n - a n)) by ring. rewrite Rabs_Ropp. exact P. Qed.
Lemma nj_add k a A b M a' A' b' M' : near_j k a A b M -> near_j k a' A' b' M' -> near_j k (addS a a') (addS A A') (addS b b') (addS M M').
Proof.
  intros H K n. destruct (H n) as [P Q]. destruct (K n) as [P' Q']. unfold addS. split; [|lra].
  replace (b n + b' n - (a n + a' n)) with ((b n - a n) + (b' n - a' n)) by ring. apply Rle_trans with (1 := Rabs_triang _ _). lra.
Qed.
Lemma nj_sub k a A b M a' A' b' M' : near_j k a A b M -> near_j k a' A' b' M' -> near_j k (subS a a') (addS A A') (subS b b') (addS M M').
Proof. intros H K. exact (nj_add k a A b M (negS a') A' (negS b') M' H (nj_neg _ _ _ _ _ K)). Qed.
Lemma nj_mul i j a A b M a' A' b' M' : dom a A -> dom b M -> dom a' A' -> dom b' M' -> near_j i a A b M -> near_j j a' A' b' M' ->
  near_j (i + j) (mulS a a') (mulS A A') (mulS b b') (mulS M M').
Proof.
  intros D1 D2 D3 D4 H K n. revert a A b M a' A' b' M' D1 D2 D3 D4 H K. induction n as [|n IH]; intros a A b M a' A' b' M' D1 D2 D3 D4 H K; cbn [mulS].
  - destruct (H O) as [P Q]. destruct (K O) as [P' Q']. specialize (D1 O). specialize (D2 O). specialize (D3 O). specialize (D4 O).
    rewrite amp_add. pose proof (amp_ge1 i). pose proof (amp_ge1 j).
    pose proof (Rabs_pos (a O)). pose proof (Rabs_pos (b O)). pose proof (Rabs_pos (a' O)). pose proof (Rabs_pos (b' O)).
    split.
    + replace (b O * b' O - a O * a' O) with (b O * (b' O - a' O) + (b O - a O) * a' O) by ring.
      apply Rle_trans with (1 := Rabs_triang _ _). rewrite !Rabs_mult.
      apply Rle_trans with (amp i * A O * ((amp j - 1) * A' O) + (amp i - 1) * A O * A' O); [|right; ring].
      apply Rplus_le_compat; apply Rmult_le_compat; try apply Rabs_pos; lra.
    + replace (amp i * amp j * (A O * A' O)) with ((amp i * A O) * (amp j * A' O)) by ring. apply Rmult_le_compat; lra.
  - destruct (IH _ _ _ _ _ _ _ _ (dom_sh _ _ D1) (dom_sh _ _ D2) D3 D4 (nj_sh _ _ _ _ _ H) K) as [P Q].
    destruct (IH _ _ _ _ _ _ _ _ D1 D2 (dom_sh _ _ D3) (dom_sh _ _ D4) H (nj_sh _ _ _ _ _ K)) as [P' Q'].
    split; [|lra]. match goal with |- Rabs (?x + ?y - (?z + ?w)) <= _ => replace (x + y - (z + w)) with ((x - z) + (y - w)) by ring end.
    apply Rle_trans with (1 := Rabs_triang _ _). lra.
Qed.
Lemma j2_nn t a A b M : dom a A -> dom b M -> dom (j2 t false a b) (j2 t true A M).
Proof. destruct t; cbn [j2]; intros; auto using dom_mul, dom_add, dom_sub. Qed.

(** ** the class of the expressions that occur, with the measures *)
Section Class.
Variable B : nat.
Notation EB d := ((B + 52) * d)%nat.

Inductive sz : nat -> nat -> nat -> nat -> expr -> Prop :=
| sz_num n v d l c h : (1 <= d)%nat -> snice (EB d) (B * d + l) n v -> sz d l c h (e_num n)
| sz_var y d l c h : (1 <= d)%nat -> sz d l c h (e_var y)
| sz_neg a d l c h : sz d l c h a -> sz d l (1 + c) h (e_neg a)
| sz_add a b d l c h : sz d l c h a -> sz d l c h b -> sz d (S l) (3 + c) h (e_add a b)
| sz_sub a b d l c h : sz d l c h a -> sz d l c h b -> sz d (S l) (3 + c) h (e_sub a b)
| sz_mul a b d l c d' l' c' h : sz d l c h a -> sz d' l' c' h b -> sz (d + d') (l + l') (3 + (c + c')) (3 + h) (e_mul a b).

Lemma sz_le d l c h e : sz d l c h e -> forall d' l' c' h', (d <= d')%nat -> (l <= l')%nat -> (c <= c')%nat -> (h <= h')%nat -> sz d' l' c' h' e.
Proof.
  induction 1 as [n v d l c h Hd N|y d l c h Hd|a d l c h Ha IHa|a b d l c h Ha IHa Hb IHb|a b d l c h Ha IHa Hb IHb|a b d l c d2 l2 c2 h Ha IHa Hb IHb]; intros d' l' c' h' L1 L2 L3 L4.
  - apply (sz_num n v); [lia|]. apply (snice_le (EB d) (B * d + l)); [nia|nia|exact N].
  - apply sz_var. lia.
  - replace c' with (1 + (c' - 1))%nat by lia. apply sz_neg, IHa; lia.
  - destruct l' as [|l']; [lia|]. replace c' with (3 + (c' - 3))%nat by lia. apply sz_add; [apply IHa|apply IHb]; lia.
  - destruct l' as [|l']; [lia|]. replace c' with (3 + (c' - 3))%nat by lia. apply sz_sub; [apply IHa|apply IHb]; lia.
  - replace d' with (d + (d' - d))%nat by lia. replace l' with (l + (l' - l))%nat by lia. replace c' with (3 + (c + (c' - 3 - c)))%nat by lia.
    replace h' with (3 + (h' - 3))%nat by lia. apply sz_mul; [apply IHa|apply IHb]; lia.
Qed.
Lemma sz_d d l c h e : sz d l c h e -> (1 <= d)%nat.
Proof. induction 1; lia. Qed.
Lemma sz_dom d l c h e rho x : sz d l c h e -> dom (gj false rho x e) (gj true (absr rho) x e).
Proof.
  induction 1 as [n v d l c h Hd N|y d l c h Hd|a d l c h Ha IHa|a b d l c h Ha IHa Hb IHb|a b d l c h Ha IHa Hb IHb|a b d l c d2 l2 c2 h Ha IHa Hb IHb].
  - rewrite !(gj_num _ _ x n v (proj1 N)). intros [|k]; cbn [cstS]; rewrite ?Rabs_R0; lra.
  - cbn [gj e_var]. unfold absr. intros k. destruct (String.eqb y x), k as [|[|k]]; cbn [cstS varS]; rewrite ?Rabs_R0, ?Rabs_R1; lra.
  - rewrite !gj_neg. apply dom_neg, IHa.
  - rewrite !gj_add. apply dom_add; assumption.
  - rewrite !gj_sub. apply dom_sub; assumption.
  - rewrite !gj_mul. apply dom_mul; assumption.
Qed.
Lemma sz_nn d l c h e rho x : sz d l c h e -> nn (gj true (absr rho) x e).
Proof. intros H. exact (dom_nn _ _ (sz_dom d l c h e rho x H)). Qed.
Lemma sz_num_inv d l c h k n : sz d l c h (Expr (Operand (Num n)) k) -> exists v, k = [] /\ (1 <= d)%nat /\ snice (EB d) (B * d + l) n v.
Proof. intros H. inversion H; subst; eauto. Qed.
Lemma sz_zero d l c h e s rho x : sz d l c h e -> is_zero e = true -> forall k, gj s rho x e k = 0.
Proof.
  intros H Z k. inversion H; subst; try discriminate Z. destruct H1 as (A & O1 & _).
  rewrite (gj_num s rho x n v A), (num_R_zero n v O1 Z A). destruct s, k; cbn [cstS]; rewrite ?Rabs_R0; reflexivity.
Qed.
Lemma sz_one d l c h e s rho x : sz d l c h e -> is_one e = true -> forall k, gj s rho x e k = cstS 1 k.
Proof.
  intros H Z k. inversion H; subst; try discriminate Z. destruct H1 as (A & O1 & _).
  rewrite (gj_num s rho x n v A), (num_R_one n v O1 Z A). destruct s; rewrite ?Rabs_R1; reflexivity.
Qed.
Lemma sz_e_zero d l c h : (1 <= d)%nat -> (EB d <= 1000)%nat -> (B * d + l <= 1000)%nat -> sz d l c h e_zero.
Proof. intros H L L'. apply (sz_num (sn_of_i64 0) 0); [exact H|]. apply (snice_int _ _ 0); auto. rewrite Rabs_R0. apply Rlt_le, pow2_pos. Qed.
Lemma sz_e_one d l c h : (1 <= d)%nat -> (EB d <= 1000)%nat -> (B * d + l <= 1000)%nat -> sz d l c h e_one.
Proof. intros H L L'. apply (sz_num (sn_of_i64 1) 1); [exact H|]. apply (snice_int _ _ 1); auto. rewrite Rabs_R1. apply pow_R1_Rle. lra. Qed.

(** simplified: no operation on numbers only is left *)
Inductive nf : expr -> Prop :=
| nf_num n : nf (e_num n)
| nf_var y : nf (e_var y)
| nf_neg a : nf a -> is_num a = false -> nf (e_neg a)
| nf_add a b : nf a -> nf b -> is_num a && is_num b = false -> nf (e_add a b)
| nf_sub a b : nf a -> nf b -> is_num a && is_num b = false -> nf (e_sub a b)
| nf_mul a b : nf a -> nf b -> is_num a && is_num b = false -> is_zero a || is_zero b = false -> nf (e_mul a b).

Lemma neg_inv d l c h op r a : sz d l c h (Expr (Operator op) (r ++ [a])) -> nf (Expr (Operator op) (r ++ [a])) -> descriptor op = ONeg ->
  r = [] /\ sz d l c h a /\ nf a /\ is_num a = false /\ Expr (Operator op) (r ++ [a]) = e_neg a.
Proof.
  intros H N D. remember (r ++ [a])%list as k eqn:Ek. inversion H as [| |a0 d0 l0 c0 h0 Ha| | |]; try subst op; try discriminate D. clear H. match goal with K : [_] = k |- _ => symmetry in K; rename K into Kk end.
  rewrite Ek in Kk. destruct r as [|y [|y1 r]]; cbn in Kk; try discriminate Kk. injection Kk as ->. subst.
  split; [reflexivity|]. split; [apply (sz_le _ _ _ _ _ Ha); lia|].
  inversion N; subst; auto.
Qed.
Lemma is_zero_num e : is_zero e = true -> is_num e = true.
Proof. destruct e as [[op|[n|y]] k]; try discriminate; reflexivity. Qed.
Lemma is_one_num e : is_one e = true -> is_num e = true.
Proof. destruct e as [[op|[n|y]] k]; try discriminate; reflexivity. Qed.

(** *** one rule, not both operands numbers: exact *)
Lemma exact1 d l c h a z : sz d l c h a -> nf a -> is_num a = false -> ar1 Debug ONeg a z ->
  sz d l (1 + c) h z /\ nf z /\ is_num z = false /\ forall s rho x k, gj s rho x z k = (if s then gj s rho x a else negS (gj s rho x a)) k.
Proof.
  intros Ha Na Nn H. inversion H; subst; clear H.
  - discriminate Nn.
  - destruct (neg_inv _ _ _ _ _ _ _ Ha Na H0) as (_ & Hz & Nz & Iz & E). rewrite E.
    split; [apply (sz_le _ _ _ _ _ Hz); lia|]. split; [exact Nz|]. split; [exact Iz|]. intros s rho x k. rewrite gj_neg.
    destruct s; [reflexivity|]. unfold negS. ring.
  - split; [apply sz_neg, Ha|]. split; [apply nf_neg; assumption|]. split; reflexivity.
Qed.
Lemma exact_as t d l c h a b z : t = OAdd \/ t = OSub -> sz d l c h a -> sz d l c h b -> nf a -> nf b -> is_num a && is_num b = false -> ar2 Debug t a b z ->
  sz d (S l) (3 + c) h z /\ nf z /\ is_num z = false /\ forall s rho x k, gj s rho x z k = j2 t s (gj s rho x a) (gj s rho x b) k.
Proof.
  intros Ht Ha Hb Na Nb Nn H. destruct Ht as [-> | ->]; inversion H; subst; clear H; try discriminate Nn.
  - pose proof (is_zero_num _ H1) as K. rewrite K in Nn. cbn in Nn. split; [apply (sz_le _ _ _ _ _ Hb); lia|]. split; [exact Nb|]. split; [exact Nn|].
    intros s rho x k. cbn [j2]. unfold addS. rewrite (sz_zero _ _ _ _ _ s rho x Ha H1). ring.
  - pose proof (is_zero_num _ H2) as K. rewrite K, andb_true_r in Nn. split; [apply (sz_le _ _ _ _ _ Ha); lia|]. split; [exact Na|]. split; [exact Nn|].
    intros s rho x k. cbn [j2]. unfold addS. rewrite (sz_zero _ _ _ _ _ s rho x Hb H2). ring.
  - split; [apply sz_add; assumption|]. split; [apply nf_add; assumption|]. split; reflexivity.
  - pose proof (is_zero_num _ H1) as K. rewrite K in Nn. cbn in Nn. split; [apply (sz_le d l (1 + c) h); try lia; apply sz_neg, Hb|]. split; [apply nf_neg; assumption|]. split; [reflexivity|].
    intros s rho x k. rewrite gj_neg. cbn [j2]. destruct s; unfold addS, subS, negS; rewrite (sz_zero _ _ _ _ _ _ rho x Ha H1); ring.
  - pose proof (is_zero_num _ H2) as K. rewrite K, andb_true_r in Nn. split; [apply (sz_le _ _ _ _ _ Ha); lia|]. split; [exact Na|]. split; [exact Nn|].
    intros s rho x k. cbn [j2]. destruct s; unfold addS, subS; rewrite (sz_zero _ _ _ _ _ _ rho x Hb H2); ring.
  - split; [apply sz_sub; assumption|]. split; [apply nf_sub; assumption|]. split; reflexivity.
Qed.
Lemma exact_m d l c h d' l' c' a b z : (EB (d + d') <= 1000)%nat -> (B * (d + d') + (l + l') <= 1000)%nat ->
  sz d l c h a -> sz d' l' c' h b -> nf a -> nf b -> is_num a && is_num b = false -> ar2 Debug OMul a b z ->
  sz (d + d') (l + l') (3 + (c + c')) (3 + h) z /\ nf z /\ (is_zero a || is_zero b = false -> is_num z = false) /\
  forall s rho x k, gj s rho x z k = mulS (gj s rho x a) (gj s rho x b) k.
Proof.
  intros L1 L2 Ha Hb Na Nb Nn H. pose proof (sz_d _ _ _ _ _ Ha). inversion H; subst; clear H; try discriminate Nn.
  - split; [apply sz_e_zero; lia|]. split; [apply (nf_num (sn_of_i64 0))|]. split; [intros K; rewrite K in *; discriminate|].
    intros s rho x k. rewrite gj_zero. apply orb_prop in H2 as [Z|Z].
    + symmetry. apply mulS_0_l. intros i. exact (sz_zero _ _ _ _ _ s rho x Ha Z i).
    + symmetry. rewrite mulS_comm. apply mulS_0_l. intros i. exact (sz_zero _ _ _ _ _ s rho x Hb Z i).
  - pose proof (is_one_num _ H3) as K. rewrite K in Nn. cbn in Nn. split; [apply (sz_le _ _ _ _ _ Hb); lia|]. split; [exact Nb|]. split; [intros _; exact Nn|].
    intros s rho x k. rewrite (mulS_ext k _ _ (cstS 1) (gj s rho x z) (sz_one _ _ _ _ _ s rho x Ha H3) (fun i => eq_refl)), mulS_1_l. reflexivity.
  - pose proof (is_one_num _ H4) as K. rewrite K, andb_true_r in Nn. split; [apply (sz_le _ _ _ _ _ Ha); lia|]. split; [exact Na|]. split; [intros _; exact Nn|].
    intros s rho x k. rewrite mulS_comm, (mulS_ext k _ _ (cstS 1) (gj s rho x z) (sz_one _ _ _ _ _ s rho x Hb H4) (fun i => eq_refl)), mulS_1_l. reflexivity.
  - split; [apply sz_mul; assumption|]. split; [apply nf_mul; assumption|]. split; reflexivity.
Qed.

(** *** one rule, any operands *)
Definition nj (k : nat) (rho : string -> R) (x : string) (a A : jet_t) (z : expr) : Prop :=
  near_j k a A (gj false rho x z) (gj true (absr rho) x z).
Lemma nj_cst k r v V rho x z n : (forall s rho, gj s rho x z = cstS (if s then Rabs r else r)) -> Rabs v <= V -> Rabs (r - v) <= (amp k - 1) * V ->
  (forall s, n s O = if s : bool then V else v) -> (forall s i, n s (S i) = 0) -> nj k rho x (n false) (n true) z.
Proof.
  intros E L H N0 NS i. rewrite !E. pose proof (amp_ge1 k). destruct i as [|i]; cbn [cstS]; rewrite ?N0, ?NS.
  - split; [exact H|]. pose proof (Rabs_triang (r - v) v) as T. replace (r - v + v) with r in T by ring. lra.
  - rewrite Rminus_0_r, Rabs_R0. lra.
Qed.
Lemma mulS_cst v w n : mulS (cstS v) (cstS w) (S n) = 0.
Proof. cbn [mulS]. rewrite mulS_0_l by reflexivity. rewrite (mulS_comm n), mulS_0_l by reflexivity. ring. Qed.

Lemma step1 d l c h a z : (EB d <= 1000)%nat -> (B * d + l <= 1000)%nat -> sz d l c h a -> nf a -> ar1 Debug ONeg a z ->
  sz d l (1 + c) h z /\ nf z /\ forall rho x, nj 1 rho x (negS (gj false rho x a)) (gj true (absr rho) x a) z.
Proof.
  intros L1 L2 Ha Na H. destruct (is_num a) eqn:In.
  - inversion H; subst; clear H; try discriminate In; try congruence.
    destruct (sz_num_inv _ _ _ _ _ _ Ha) as (v1 & -> & Hd & N). destruct (snice_neg _ _ n v1 v L1 L2 N H0) as (r & Nr & Er).
    split; [apply (sz_num v r); assumption|]. split; [apply nf_num|]. intros rho x. change (Expr (Operand (Num n)) []) with (e_num n).
    rewrite !(gj_num _ _ x n v1 (proj1 N)).
    apply (nj_cst 1 r (- v1) (Rabs v1) rho x (e_num v) (fun s : bool => if s then cstS (Rabs v1) else negS (cstS v1))); auto.
    + intros s rho'. exact (gj_num s rho' x v r (proj1 Nr)).
    + rewrite Rabs_Ropp. lra.
    + intros []; reflexivity.
    + intros [] i; unfold negS; cbn [cstS]; ring.
  - destruct (exact1 _ _ _ _ _ _ Ha Na In H) as (Hz & Nz & _ & E). split; [exact Hz|]. split; [exact Nz|]. intros rho x.
    apply nj_refl; [exact (sz_nn _ _ _ _ _ rho x Ha)|intros n; exact (E false rho x n)|intros n; exact (E true (absr rho) x n)].
Qed.
Lemma step_as t d l c h a b z : t = OAdd \/ t = OSub -> (EB d <= 1000)%nat -> (B * d + l <= 900)%nat -> sz d l c h a -> sz d l c h b -> nf a -> nf b -> ar2 Debug t a b z ->
  sz d (S l) (3 + c) h z /\ nf z /\ forall rho x, nj 3 rho x (j2 t false (gj false rho x a) (gj false rho x b)) (j2 t true (gj true (absr rho) x a) (gj true (absr rho) x b)) z.
Proof.
  intros Ht L1 L2 Ha Hb Na Nb H. destruct (is_num a && is_num b) eqn:In.
  - assert (exists n k v, a = e_num n /\ b = e_num k /\ z = e_num v /\ sn_op Debug t n k = Ok v) as (n & k & v & -> & -> & -> & Eo).
    { destruct Ht as [-> | ->]; inversion H; subst; clear H; try congruence;
      destruct (sz_num_inv _ _ _ _ _ _ Ha) as (? & -> & _); destruct (sz_num_inv _ _ _ _ _ _ Hb) as (? & -> & _); exists x, y, v; auto. }
    destruct (sz_num_inv _ _ _ _ _ _ Ha) as (v1 & _ & Hd & N). destruct (sz_num_inv _ _ _ _ _ _ Hb) as (w1 & _ & _ & N').
    assert (exists r, snice (EB d) (B * d + S l) v r /\ Rabs (r - (match t with OAdd => v1 + w1 | _ => v1 - w1 end)) <= (amp 3 - 1) * (Rabs v1 + Rabs w1)) as (r & Nr & Er).
    { replace (B * d + S l)%nat with (S (B * d + l)) by lia.
      destruct Ht as [-> | ->]; cbn [sn_op] in Eo; [eapply snice_add|eapply snice_sub]; eauto; lia. }
    split; [apply (sz_num v r); assumption|]. split; [apply nf_num|]. intros rho x.
    rewrite !(gj_num _ _ x n v1 (proj1 N)), !(gj_num _ _ x k w1 (proj1 N')).
    apply (nj_cst 3 r (match t with OAdd => v1 + w1 | _ => v1 - w1 end) (Rabs v1 + Rabs w1) rho x (e_num v) (fun s => j2 t s (cstS (if s then Rabs v1 else v1)) (cstS (if s then Rabs w1 else w1)))); auto.
    + intros s rho'. exact (gj_num s rho' x v r (proj1 Nr)).
    + destruct Ht as [-> | ->]; [apply Rabs_triang|]. unfold Rminus. rewrite <- (Rabs_Ropp w1). apply Rabs_triang.
    + intros s. destruct Ht as [-> | ->], s; reflexivity.
    + intros s i. destruct Ht as [-> | ->], s; unfold j2, addS, subS; cbn [cstS]; ring.
  - destruct (exact_as _ _ _ _ _ _ _ _ Ht Ha Hb Na Nb In H) as (Hz & Nz & _ & E). split; [exact Hz|]. split; [exact Nz|]. intros rho x.
    apply nj_refl; [exact (dom_nn _ _ (j2_nn t _ _ _ _ (sz_dom _ _ _ _ _ rho x Ha) (sz_dom _ _ _ _ _ rho x Hb)))|intros n; exact (E false rho x n)|intros n; exact (E true (absr rho) x n)].
Qed.
Lemma step_m d l c h d' l' c' a b z : (EB (d + d') <= 1000)%nat -> (B * (d + d') + (l + l') <= 900)%nat -> sz d l c h a -> sz d' l' c' h b -> nf a -> nf b -> ar2 Debug OMul a b z ->
  sz (d + d') (l + l') (3 + (c + c')) (3 + h) z /\ nf z /\ forall rho x, nj 3 rho x (mulS (gj false rho x a) (gj false rho x b)) (mulS (gj true (absr rho) x a) (gj true (absr rho) x b)) z.
Proof.
  intros L1 L2 Ha Hb Na Nb H. destruct (is_num a && is_num b) eqn:In.
  - assert (exists n k v, a = e_num n /\ b = e_num k /\ z = e_num v /\ sn_mul Debug n k = Ok v) as (n & k & v & -> & -> & -> & Eo).
    { inversion H; subst; clear H; try congruence;
      destruct (sz_num_inv _ _ _ _ _ _ Ha) as (? & -> & _); destruct (sz_num_inv _ _ _ _ _ _ Hb) as (? & -> & _); exists x, y, v; auto. }
    destruct (sz_num_inv _ _ _ _ _ _ Ha) as (v1 & _ & Hd & N). destruct (sz_num_inv _ _ _ _ _ _ Hb) as (w1 & _ & _ & N').
    destruct (snice_mul (EB d) (B * d + l) (EB d') (B * d' + l') n k v1 w1 v ltac:(lia) ltac:(lia) N N' Eo) as (r & Nr & Er).
    split; [apply (sz_num v r); [lia|]; replace (B * (d + d') + (l + l'))%nat with ((B * d + l) + (B * d' + l'))%nat by lia; replace (EB (d + d')) with (EB d + EB d')%nat by lia; exact Nr|].
    split; [apply nf_num|]. intros rho x.
    rewrite !(gj_num _ _ x n v1 (proj1 N)), !(gj_num _ _ x k w1 (proj1 N')).
    apply (nj_cst 3 r (v1 * w1) (Rabs v1 * Rabs w1) rho x (e_num v) (fun s : bool => mulS (cstS (if s then Rabs v1 else v1)) (cstS (if s then Rabs w1 else w1)))); auto.
    + intros s rho'. exact (gj_num s rho' x v r (proj1 Nr)).
    + rewrite Rabs_mult. lra.
    + intros []; reflexivity.
    + intros s i. apply mulS_cst.
  - assert (B * (d + d') + (l + l') <= 1000)%nat as L3 by lia. destruct (exact_m _ _ _ _ _ _ _ _ _ _ L1 L3 Ha Hb Na Nb In H) as (Hz & Nz & _ & E). split; [exact Hz|]. split; [exact Nz|]. intros rho x.
    apply nj_refl; [exact (nn_mul _ _ (sz_nn _ _ _ _ _ rho x Ha) (sz_nn _ _ _ _ _ rho x Hb))|intros n; exact (E false rho x n)|intros n; exact (E true (absr rho) x n)].
Qed.

(** ** simplification *)
Lemma agg1 t a z : arity t = 1%nat -> num_aggregate Debug (mk1 t a) = Ok z -> exists a', num_aggregate Debug a = Ok a' /\ ar1 Debug t a' z.
Proof.
  intros Ht H. rewrite agg_mk1 in H by exact Ht. inv_bind H. eexists. split; [eassumption|]. apply rule1_ar; assumption.
Qed.
Lemma EB_l d d' : (EB (d + d') <= 1000 -> EB d <= 1000)%nat. Proof. nia. Qed.
Lemma EB_r d d' : (EB (d + d') <= 1000 -> EB d' <= 1000)%nat. Proof. nia. Qed.

Lemma sz_agg d l c h e : sz d l c h e -> (EB d <= 1000)%nat -> (B * d + l <= 900)%nat -> forall z, num_aggregate Debug e = Ok z ->
  sz d l c h z /\ nf z /\ forall rho x, nj c rho x (gj false rho x e) (gj true (absr rho) x e) z.
Proof.
  induction 1 as [n v d l c h Hd N|y d l c h Hd|a d l c h Ha IHa|a b d l c h Ha IHa Hb IHb|a b d l c h Ha IHa Hb IHb|a b d l c d2 l2 c2 h Ha IHa Hb IHb]; intros LE L z E.
  - injection E as <-. pose proof (sz_num n v d l c h Hd N) as Q. split; [exact Q|]. split; [apply nf_num|].
    intros rho x. apply nj_refl; [exact (sz_nn _ _ _ _ _ rho x Q)|reflexivity|reflexivity].
  - injection E as <-. pose proof (sz_var y d l c h Hd) as Q. split; [exact Q|]. split; [apply nf_var|].
    intros rho x. apply nj_refl; [exact (sz_nn _ _ _ _ _ rho x Q)|reflexivity|reflexivity].
  - destruct (agg1 ONeg a z eq_refl E) as (a' & Ea & St). destruct (IHa LE L a' Ea) as (Pa & Na & Ca).
    destruct (step1 d l c h a' z LE ltac:(lia) Pa Na St) as (Pz & Nz & Cz). split; [exact Pz|]. split; [exact Nz|].
    intros rho x. rewrite !gj_neg. replace (1 + c)%nat with (c + 1)%nat by lia.
    apply (nj_trans c 1 _ _ (negS (gj false rho x a')) (gj true (absr rho) x a')); [exact (sz_nn _ _ _ _ _ rho x Ha)| |apply Cz].
    apply nj_neg, Ca.
  - destruct (agg2 OAdd a b z eq_refl E) as (a' & b' & Ea & Eb & St).
    destruct (IHa LE ltac:(lia) a' Ea) as (Pa & Na & Ca). destruct (IHb LE ltac:(lia) b' Eb) as (Pb & Nb & Cb).
    destruct (step_as OAdd d l c h a' b' z (or_introl eq_refl) LE ltac:(lia) Pa Pb Na Nb St) as (Pz & Nz & Cz). split; [exact Pz|]. split; [exact Nz|].
    intros rho x. rewrite !gj_add. replace (3 + c)%nat with (c + 3)%nat by lia.
    apply (nj_trans c 3 _ _ (addS (gj false rho x a') (gj false rho x b')) (addS (gj true (absr rho) x a') (gj true (absr rho) x b'))); [|apply nj_add; [apply Ca|apply Cb]|apply Cz].
    apply nn_add; [exact (sz_nn _ _ _ _ _ rho x Ha)|exact (sz_nn _ _ _ _ _ rho x Hb)].
  - destruct (agg2 OSub a b z eq_refl E) as (a' & b' & Ea & Eb & St).
    destruct (IHa LE ltac:(lia) a' Ea) as (Pa & Na & Ca). destruct (IHb LE ltac:(lia) b' Eb) as (Pb & Nb & Cb).
    destruct (step_as OSub d l c h a' b' z (or_intror eq_refl) LE ltac:(lia) Pa Pb Na Nb St) as (Pz & Nz & Cz). split; [exact Pz|]. split; [exact Nz|].
    intros rho x. rewrite !gj_sub. replace (3 + c)%nat with (c + 3)%nat by lia.
    apply (nj_trans c 3 _ _ (subS (gj false rho x a') (gj false rho x b')) (addS (gj true (absr rho) x a') (gj true (absr rho) x b'))); [|apply nj_sub; [apply Ca|apply Cb]|apply Cz].
    apply nn_add; [exact (sz_nn _ _ _ _ _ rho x Ha)|exact (sz_nn _ _ _ _ _ rho x Hb)].
  - destruct (agg2 OMul a b z eq_refl E) as (a' & b' & Ea & Eb & St). pose proof (EB_l _ _ LE) as LE1. pose proof (EB_r _ _ LE) as LE2.
    destruct (IHa LE1 ltac:(lia) a' Ea) as (Pa & Na & Ca). destruct (IHb LE2 ltac:(lia) b' Eb) as (Pb & Nb & Cb).
    destruct (step_m d l c h d2 l2 c2 a' b' z LE L Pa Pb Na Nb St) as (Pz & Nz & Cz). split; [exact Pz|]. split; [exact Nz|].
    intros rho x. rewrite !gj_mul. replace (3 + (c + c2))%nat with (c + c2 + 3)%nat by lia.
    apply (nj_trans (c + c2) 3 _ _ (mulS (gj false rho x a') (gj false rho x b')) (mulS (gj true (absr rho) x a') (gj true (absr rho) x b'))); [| |apply Cz].
    + apply nn_mul; [exact (sz_nn _ _ _ _ _ rho x Ha)|exact (sz_nn _ _ _ _ _ rho x Hb)].
    + apply nj_mul; [exact (sz_dom _ _ _ _ _ rho x Ha)|exact (sz_dom _ _ _ _ _ rho x Pa)|exact (sz_dom _ _ _ _ _ rho x Hb)|exact (sz_dom _ _ _ _ _ rho x Pb)|apply Ca|apply Cb].
Qed.

(** a second pass changes nothing that matters *)
Lemma nf_agg d l c h e : sz d l c h e -> (EB d <= 1000)%nat -> (B * d + l <= 900)%nat -> nf e -> forall z, num_aggregate Debug e = Ok z ->
  is_num z = is_num e /\ (is_num e = true -> z = e) /\ forall s rho x k, gj s rho x z k = gj s rho x e k.
Proof.
  induction 1 as [n v d l c h Hd N|y d l c h Hd|a d l c h Ha IHa|a b d l c h Ha IHa Hb IHb|a b d l c h Ha IHa Hb IHb|a b d l c d2 l2 c2 h Ha IHa Hb IHb]; intros LE L Nf z E.
  - injection E as <-. auto.
  - injection E as <-. auto.
  - inversion Nf as [| |a0 Na In| | |]; subst. destruct (agg1 ONeg a z eq_refl E) as (a' & Ea & St).
    destruct (IHa LE L Na a' Ea) as (I1 & _ & J). destruct (sz_agg _ _ _ _ _ Ha LE L a' Ea) as (Pa & Na' & _).
    destruct (exact1 _ _ _ _ _ _ Pa Na' ltac:(congruence) St) as (_ & _ & Iz & Ez).
    split; [exact Iz|]. split; [discriminate|]. intros s rho x k. rewrite Ez, gj_neg. destruct s; [apply J|]. unfold negS. rewrite J. reflexivity.
  - inversion Nf as [| | |a0 b0 Na Nb In| |]; subst. destruct (agg2 OAdd a b z eq_refl E) as (a' & b' & Ea & Eb & St).
    assert (B * d + l <= 900)%nat as L' by lia.
    destruct (IHa LE L' Na a' Ea) as (I1 & _ & J1). destruct (IHb LE L' Nb b' Eb) as (I2 & _ & J2).
    destruct (sz_agg _ _ _ _ _ Ha LE L' a' Ea) as (Pa & Na' & _). destruct (sz_agg _ _ _ _ _ Hb LE L' b' Eb) as (Pb & Nb' & _).
    destruct (exact_as OAdd _ _ _ _ _ _ _ (or_introl eq_refl) Pa Pb Na' Nb' ltac:(congruence) St) as (_ & _ & Iz & Ez).
    split; [exact Iz|]. split; [discriminate|]. intros s rho x k. rewrite Ez, gj_add. cbn [j2]. unfold addS. rewrite J1, J2. reflexivity.
  - inversion Nf as [| | | |a0 b0 Na Nb In|]; subst. destruct (agg2 OSub a b z eq_refl E) as (a' & b' & Ea & Eb & St).
    assert (B * d + l <= 900)%nat as L' by lia.
    destruct (IHa LE L' Na a' Ea) as (I1 & _ & J1). destruct (IHb LE L' Nb b' Eb) as (I2 & _ & J2).
    destruct (sz_agg _ _ _ _ _ Ha LE L' a' Ea) as (Pa & Na' & _). destruct (sz_agg _ _ _ _ _ Hb LE L' b' Eb) as (Pb & Nb' & _).
    destruct (exact_as OSub _ _ _ _ _ _ _ (or_intror eq_refl) Pa Pb Na' Nb' ltac:(congruence) St) as (_ & _ & Iz & Ez).
    split; [exact Iz|]. split; [discriminate|]. intros s rho x k. rewrite Ez, gj_sub. cbn [j2]. destruct s; unfold addS, subS; rewrite J1, J2; reflexivity.
  - inversion Nf as [| | | | |a0 b0 Na Nb In Z0]; subst. destruct (agg2 OMul a b z eq_refl E) as (a' & b' & Ea & Eb & St).
    pose proof (EB_l _ _ LE) as LE1. pose proof (EB_r _ _ LE) as LE2. assert (B * d + l <= 900 /\ B * d2 + l2 <= 900)%nat as [L1 L2] by lia.
    destruct (IHa LE1 L1 Na a' Ea) as (I1 & K1 & J1). destruct (IHb LE2 L2 Nb b' Eb) as (I2 & K2 & J2).
    destruct (sz_agg _ _ _ _ _ Ha LE1 L1 a' Ea) as (Pa & Na' & _). destruct (sz_agg _ _ _ _ _ Hb LE2 L2 b' Eb) as (Pb & Nb' & _).
    assert (is_zero a' || is_zero b' = false) as Z'.
    { apply orb_false_elim in Z0 as [Z1 Z2]. apply orb_false_intro.
      - destruct (is_zero a') eqn:K; [|reflexivity]. pose proof (is_zero_num _ K) as K'. rewrite I1 in K'. rewrite (K1 K') in K. congruence.
      - destruct (is_zero b') eqn:K; [|reflexivity]. pose proof (is_zero_num _ K) as K'. rewrite I2 in K'. rewrite (K2 K') in K. congruence. }
    assert (B * (d + d2) + (l + l2) <= 1000)%nat as L3 by lia.
    destruct (exact_m _ _ _ _ _ _ _ _ _ _ LE L3 Pa Pb Na' Nb' ltac:(congruence) St) as (_ & _ & Iz & Ez).
    split; [exact (Iz Z')|]. split; [discriminate|]. intros s rho x k. rewrite Ez, gj_mul. apply mulS_ext; auto.
Qed.
Lemma nj_ext k rho x a A z z' : (forall s rho i, gj s rho x z' i = gj s rho x z i) -> nj k rho x a A z -> nj k rho x a A z'.
Proof. intros E H n. rewrite !E. apply H. Qed.

(** ** differentiation *)
Lemma sz_deriv d l c h e x : sz d l c h e -> (EB d <= 1000)%nat -> (B * d + l + h <= 900)%nat -> forall z, deriv Debug x e = Ok z ->
  sz d (l + h) (c + h) h z /\ nf z /\
  forall rho, nj (c + h) rho x (sh (gj false rho x e)) (sh (gj true (absr rho) x e)) z.
Proof.
  induction 1 as [n v d l c h Hd N|y d l c h Hd|a d l c h Ha IHa|a b d l c h Ha IHa Hb IHb|a b d l c h Ha IHa Hb IHb|a b d l c d2 l2 c2 h Ha IHa Hb IHb]; intros LE L z E.
  - unfold e_num in E. rewrite deriv_num in E. injection E as <-. split; [apply sz_e_zero; [exact Hd|exact LE|lia]|]. split; [apply (nf_num (sn_of_i64 0))|].
    intros rho i. rewrite !gj_zero, !(gj_num _ _ x n v (proj1 N)). cbn [sh cstS]. rewrite Rminus_0_r, Rabs_R0. lra.
  - unfold e_var in E. rewrite deriv_var in E. injection E as <-. rewrite String.eqb_sym. destruct (String.eqb y x) eqn:Exy.
    + split; [apply sz_e_one; [exact Hd|exact LE|lia]|]. split; [apply (nf_num (sn_of_i64 1))|].
      intros rho. apply nj_refl.
      * apply nn_sh. exact (sz_nn _ _ _ _ _ rho x (sz_var y d l c h Hd)).
      * intros i. rewrite gj_one. unfold sh. cbn [gj e_var]. rewrite Exy. destruct i; reflexivity.
      * intros i. rewrite gj_one. unfold sh. cbn [gj e_var]. rewrite Exy. destruct i; reflexivity.
    + split; [apply sz_e_zero; [exact Hd|exact LE|lia]|]. split; [apply (nf_num (sn_of_i64 0))|].
      intros rho i. rewrite !gj_zero. unfold sh. cbn [gj e_var]. rewrite Exy. cbn [cstS]. rewrite Rminus_0_r, Rabs_R0. lra.
  - unfold e_neg in E. rewrite deriv_mk1 in E by reflexivity. inv_bind E. rename a0 into da. cbn [raw1] in E.
    destruct (IHa LE L da Hb) as (Pa & Na & Ca). assert (B * d + (l + h) <= 900)%nat as L' by lia.
    destruct (agg1 ONeg da z eq_refl E) as (a' & Ea & St). destruct (nf_agg _ _ _ _ _ Pa LE L' Na a' Ea) as (_ & _ & Ja).
    destruct (sz_agg _ _ _ _ _ Pa LE L' a' Ea) as (Pa' & Na' & _).
    destruct (step1 d (l + h) (c + h) h a' z LE ltac:(lia) Pa' Na' St) as (Pz & Nz & Cz).
    split; [apply (sz_le _ _ _ _ _ Pz); lia|]. split; [exact Nz|].
    intros rho. rewrite !gj_neg. replace (1 + c + h)%nat with (c + h + 1)%nat by lia.
    apply (nj_trans (c + h) 1 _ _ (negS (gj false rho x a')) (gj true (absr rho) x a')); [apply nn_sh; exact (sz_nn _ _ _ _ _ rho x Ha)| |apply Cz].
    change (sh (negS (gj false rho x a))) with (negS (sh (gj false rho x a))). apply nj_neg.
    apply (nj_ext _ _ _ _ _ da); [intros; apply Ja|apply Ca].
  - unfold e_add in E. rewrite deriv_mk2 in E by reflexivity. inv_bind E. inv_bind E.
    rename a0 into db, a1 into da. cbn [raw2] in E. assert (B * d + (l + h) <= 900)%nat as L' by lia.
    destruct (IHa LE ltac:(lia) da Hb1) as (Pa & Na & Ca). destruct (IHb LE ltac:(lia) db Hb0) as (Pb & Nb & Cb).
    destruct (agg2 OAdd da db z eq_refl E) as (a' & b' & Ea & Eb & St).
    destruct (nf_agg _ _ _ _ _ Pa LE L' Na a' Ea) as (_ & _ & Ja). destruct (nf_agg _ _ _ _ _ Pb LE L' Nb b' Eb) as (_ & _ & Jb).
    destruct (sz_agg _ _ _ _ _ Pa LE L' a' Ea) as (Pa' & Na' & _). destruct (sz_agg _ _ _ _ _ Pb LE L' b' Eb) as (Pb' & Nb' & _).
    destruct (step_as OAdd d (l + h) (c + h) h a' b' z (or_introl eq_refl) LE L' Pa' Pb' Na' Nb' St) as (Pz & Nz & Cz).
    split; [apply (sz_le _ _ _ _ _ Pz); lia|]. split; [exact Nz|].
    intros rho. replace (3 + c + h)%nat with (c + h + 3)%nat by lia. rewrite !gj_add.
    apply (nj_trans (c + h) 3 _ _ (addS (gj false rho x a') (gj false rho x b')) (addS (gj true (absr rho) x a') (gj true (absr rho) x b'))); [| |apply Cz].
    + apply nn_sh, nn_add; [exact (sz_nn _ _ _ _ _ rho x Ha)|exact (sz_nn _ _ _ _ _ rho x Hb)].
    + apply (nj_add (c + h) (sh (gj false rho x a)) (sh (gj true (absr rho) x a)) _ _ (sh (gj false rho x b)) (sh (gj true (absr rho) x b)));
      [apply (nj_ext _ _ _ _ _ da); [intros; apply Ja|apply Ca]|apply (nj_ext _ _ _ _ _ db); [intros; apply Jb|apply Cb]].
  - unfold e_sub in E. rewrite deriv_mk2 in E by reflexivity. inv_bind E. inv_bind E.
    rename a0 into db, a1 into da. cbn [raw2] in E. assert (B * d + (l + h) <= 900)%nat as L' by lia.
    destruct (IHa LE ltac:(lia) da Hb1) as (Pa & Na & Ca). destruct (IHb LE ltac:(lia) db Hb0) as (Pb & Nb & Cb).
    destruct (agg2 OSub da db z eq_refl E) as (a' & b' & Ea & Eb & St).
    destruct (nf_agg _ _ _ _ _ Pa LE L' Na a' Ea) as (_ & _ & Ja). destruct (nf_agg _ _ _ _ _ Pb LE L' Nb b' Eb) as (_ & _ & Jb).
    destruct (sz_agg _ _ _ _ _ Pa LE L' a' Ea) as (Pa' & Na' & _). destruct (sz_agg _ _ _ _ _ Pb LE L' b' Eb) as (Pb' & Nb' & _).
    destruct (step_as OSub d (l + h) (c + h) h a' b' z (or_intror eq_refl) LE L' Pa' Pb' Na' Nb' St) as (Pz & Nz & Cz).
    split; [apply (sz_le _ _ _ _ _ Pz); lia|]. split; [exact Nz|].
    intros rho. replace (3 + c + h)%nat with (c + h + 3)%nat by lia. rewrite !gj_sub.
    apply (nj_trans (c + h) 3 _ _ (subS (gj false rho x a') (gj false rho x b')) (addS (gj true (absr rho) x a') (gj true (absr rho) x b'))); [| |apply Cz].
    + apply nn_sh, nn_add; [exact (sz_nn _ _ _ _ _ rho x Ha)|exact (sz_nn _ _ _ _ _ rho x Hb)].
    + apply (nj_sub (c + h) (sh (gj false rho x a)) (sh (gj true (absr rho) x a)) _ _ (sh (gj false rho x b)) (sh (gj true (absr rho) x b)));
      [apply (nj_ext _ _ _ _ _ da); [intros; apply Ja|apply Ca]|apply (nj_ext _ _ _ _ _ db); [intros; apply Jb|apply Cb]].
  - unfold e_mul in E. rewrite deriv_mk2 in E by reflexivity. inv_bind E. inv_bind E.
    rename a0 into db, a1 into da. cbn [raw2] in E. pose proof (EB_l _ _ LE) as LE1. pose proof (EB_r _ _ LE) as LE2.
    destruct (IHa LE1 ltac:(lia) da Hb1) as (Pa & Na & Ca). destruct (IHb LE2 ltac:(lia) db Hb0) as (Pb & Nb & Cb).
    assert (B * d + (l + h) <= 900 /\ B * d2 + (l2 + h) <= 900 /\ B * d + l <= 900 /\ B * d2 + l2 <= 900)%nat as (L1 & L2 & L3 & L4) by lia.
    destruct (agg2 OAdd (e_mul da b) (e_mul a db) z eq_refl E) as (m1 & m2 & E1 & E2 & St).
    destruct (agg2 OMul da b m1 eq_refl E1) as (da' & b' & Ea & Eb & S1).
    destruct (agg2 OMul a db m2 eq_refl E2) as (a' & db' & Ea' & Eb' & S2).
    destruct (nf_agg _ _ _ _ _ Pa LE1 L1 Na da' Ea) as (_ & _ & Ja). destruct (nf_agg _ _ _ _ _ Pb LE2 L2 Nb db' Eb') as (_ & _ & Jb).
    destruct (sz_agg _ _ _ _ _ Pa LE1 L1 da' Ea) as (Pda & Nda & _). destruct (sz_agg _ _ _ _ _ Pb LE2 L2 db' Eb') as (Pdb & Ndb & _).
    destruct (sz_agg _ _ _ _ _ Hb LE2 L4 b' Eb) as (Pb' & Nb' & Cb'). destruct (sz_agg _ _ _ _ _ Ha LE1 L3 a' Ea') as (Pa' & Na' & Ca').
    destruct (step_m d (l + h) (c + h) h d2 l2 c2 da' b' m1 LE ltac:(lia) Pda Pb' Nda Nb' S1) as (P1 & N1 & C1).
    destruct (step_m d l c h d2 (l2 + h) (c2 + h) a' db' m2 LE ltac:(lia) Pa' Pdb Na' Ndb S2) as (P2 & N2 & C2).
    apply (fun H => sz_le _ _ _ _ _ H (d + d2) (l + l2 + h) (3 + (c + c2 + h)) (3 + h))%nat in P1; try lia.
    apply (fun H => sz_le _ _ _ _ _ H (d + d2) (l + l2 + h) (3 + (c + c2 + h)) (3 + h))%nat in P2; try lia.
    destruct (step_as OAdd (d + d2) (l + l2 + h) (3 + (c + c2 + h)) (3 + h) m1 m2 z (or_introl eq_refl) LE ltac:(lia) P1 P2 N1 N2 St) as (Pz & Nz & Cz).
    split; [apply (sz_le _ _ _ _ _ Pz); lia|]. split; [exact Nz|].
    intros rho. pose proof (sz_dom _ _ _ _ _ rho x Ha) as Dja. pose proof (sz_dom _ _ _ _ _ rho x Hb) as Djb.
    pose proof (dom_nn _ _ Dja) as Nja. pose proof (dom_nn _ _ Djb) as Njb.
    replace (3 + (c + c2) + (3 + h))%nat with (c + c2 + h + 3 + 3)%nat by lia. rewrite !gj_mul.
    apply (nj_trans (c + c2 + h + 3) 3 _ _ (addS (gj false rho x m1) (gj false rho x m2)) (addS (gj true (absr rho) x m1) (gj true (absr rho) x m2))); [apply nn_sh, nn_mul; assumption| |apply Cz].
    apply (nj_add (c + c2 + h + 3) (mulS (sh (gj false rho x a)) (gj false rho x b)) (mulS (sh (gj true (absr rho) x a)) (gj true (absr rho) x b)) _ _
      (mulS (gj false rho x a) (sh (gj false rho x b))) (mulS (gj true (absr rho) x a) (sh (gj true (absr rho) x b)))).
    + apply (nj_trans (c + c2 + h) 3 _ _ (mulS (gj false rho x da') (gj false rho x b')) (mulS (gj true (absr rho) x da') (gj true (absr rho) x b'))); [apply nn_mul; [apply nn_sh|]; assumption| |apply C1].
      replace (c + c2 + h)%nat with ((c + h) + c2)%nat by lia.
      apply nj_mul; [apply dom_sh, Dja|exact (sz_dom _ _ _ _ _ rho x Pda)|exact Djb|exact (sz_dom _ _ _ _ _ rho x Pb')| |apply Cb'].
      apply (nj_ext _ _ _ _ _ da); [intros; apply Ja|apply Ca].
    + apply (nj_trans (c + c2 + h) 3 _ _ (mulS (gj false rho x a') (gj false rho x db')) (mulS (gj true (absr rho) x a') (gj true (absr rho) x db'))); [apply nn_mul; [|apply nn_sh]; assumption| |apply C2].
      replace (c + c2 + h)%nat with (c + (c2 + h))%nat by lia.
      apply nj_mul; [exact Dja|exact (sz_dom _ _ _ _ _ rho x Pa')|apply dom_sh, Djb|exact (sz_dom _ _ _ _ _ rho x Pdb)|apply Ca'|].
      apply (nj_ext _ _ _ _ _ db); [intros; apply Jb|apply Cb].
Qed.

(** the j-th derivative *)
Definition shn (n : nat) (a : jet_t) : jet_t := fun i => a (n + i)%nat.
Lemma sz_deriv_n x n : forall d l c h e z, sz d l c h e -> (EB d <= 1000)%nat -> (B * d + l + n * h <= 900)%nat -> deriv_n Debug x n e = Ok z ->
  sz d (l + n * h) (c + n * h) h z /\ exists k, (k <= n * (c + n * h))%nat /\
  forall rho, nj k rho x (shn n (gj false rho x e)) (shn n (gj true (absr rho) x e)) z.
Proof.
  induction n as [|n IH]; intros d l c h e z H LE L E.
  - injection E as <-. rewrite Nat.mul_0_l, !Nat.add_0_r. split; [exact H|]. exists O. split; [lia|]. intros rho.
    apply nj_refl; [exact (sz_nn _ _ _ _ _ rho x H)|reflexivity|reflexivity].
  - cbn [deriv_n] in E. inv_bind E. destruct (sz_deriv d l c h e x H LE ltac:(lia) _ Hb) as (P1 & _ & C1).
    destruct (IH d (l + h)%nat (c + h)%nat h _ z P1 LE ltac:(lia) E) as (P2 & k & Hk & C2).
    split; [apply (sz_le _ _ _ _ _ P2); lia|]. exists (c + h + k)%nat. split; [nia|]. intros rho.
    apply (nj_trans (c + h) k _ _ (shn n (gj false rho x a)) (shn n (gj true (absr rho) x a))); [|intros i; apply (C1 rho (n + i)%nat)|apply C2].
    intros i. apply (sz_nn _ _ _ _ _ rho x H).
Qed.
End Class.

(** ** jets are the real derivatives *)
Lemma gj_derive B d l c h e s rho x : sz B d l c h e -> forall n t, is_derive (fun r => gj s (upd rho x r) x e n) t (gj s (upd rho x t) x e (S n)).
Proof.
  induction 1 as [k v d l c h Hd N|y d l c h Hd|a d l c h Ha IHa|a b d l c h Ha IHa Hb IHb|a b d l c h Ha IHa Hb IHb|a b d l c d2 l2 c2 h Ha IHa Hb IHb]; intros n t.
  - cbn [gj e_num]. destruct n; cbn [cstS]; apply derive_cst.
  - cbn [gj e_var]. destruct (String.eqb y x) eqn:E.
    + apply String.eqb_eq in E as ->. destruct n as [|[|n]]; cbn [varS].
      * apply (is_derive_ext (fun s => s)); [intros r; symmetry; apply upd_same|apply derive_id].
      * apply derive_cst.
      * apply derive_cst.
    + apply String.eqb_neq in E. destruct n as [|n]; cbn [cstS]; [|apply derive_cst].
      apply (is_derive_ext (fun _ => rho y)); [intros r; symmetry; apply upd_other, E|apply derive_cst].
  - destruct s; [apply IHa|]. change (is_derive (fun r => - gj false (upd rho x r) x a n) t (- gj false (upd rho x t) x a (S n))).
    apply (is_derive_opp (fun r => gj false (upd rho x r) x a n)), IHa.
  - change (is_derive (fun r => gj s (upd rho x r) x a n + gj s (upd rho x r) x b n) t (gj s (upd rho x t) x a (S n) + gj s (upd rho x t) x b (S n))).
    apply (is_derive_plus (fun r => gj s (upd rho x r) x a n) (fun r => gj s (upd rho x r) x b n)); [apply IHa|apply IHb].
  - destruct s.
    + change (is_derive (fun r => gj true (upd rho x r) x a n + gj true (upd rho x r) x b n) t (gj true (upd rho x t) x a (S n) + gj true (upd rho x t) x b (S n))).
      apply (is_derive_plus (fun r => gj true (upd rho x r) x a n) (fun r => gj true (upd rho x r) x b n)); [apply IHa|apply IHb].
    + change (is_derive (fun r => gj false (upd rho x r) x a n - gj false (upd rho x r) x b n) t (gj false (upd rho x t) x a (S n) - gj false (upd rho x t) x b (S n))).
      apply (is_derive_minus (fun r => gj false (upd rho x r) x a n) (fun r => gj false (upd rho x r) x b n)); [apply IHa|apply IHb].
  - apply (mulS_derive n (fun r => gj s (upd rho x r) x a) (fun r => gj s (upd rho x r) x b)); auto.
Qed.
Lemma gj_ext B d l c h e s rho rho' x : (forall y, rho y = rho' y) -> sz B d l c h e -> forall n, gj s rho x e n = gj s rho' x e n.
Proof.
  intros E. induction 1 as [k v d l c h Hd N|y d l c h Hd|a d l c h Ha IHa|a b d l c h Ha IHa Hb IHb|a b d l c h Ha IHa Hb IHb|a b d l c d2 l2 c2 h Ha IHa Hb IHb]; intros n.
  - reflexivity.
  - cbn [gj e_var]. rewrite E. reflexivity.
  - rewrite !gj_neg. destruct s; [apply IHa|]. unfold negS. rewrite IHa. reflexivity.
  - rewrite !gj_add. unfold addS. rewrite IHa, IHb. reflexivity.
  - rewrite !gj_sub. destruct s; unfold addS, subS; rewrite IHa, IHb; reflexivity.
  - rewrite !gj_mul. apply mulS_ext; assumption.
Qed.
Lemma gj_eval B d l c h e rho x : sz B d l c h e -> eval rho e = Some (gj false rho x e O).
Proof.
  induction 1 as [k v d l c h Hd N|y d l c h Hd|a d l c h Ha IHa|a b d l c h Ha IHa Hb IHb|a b d l c h Ha IHa Hb IHb|a b d l c d2 l2 c2 h Ha IHa Hb IHb].
  - rewrite (gj_num _ rho x k v (proj1 N)). exact (proj1 N).
  - cbn [gj e_var eval]. destruct (String.eqb y x); reflexivity.
  - unfold e_neg at 1. rewrite eval_mk1, IHa. reflexivity.
  - unfold e_add at 1. rewrite eval_mk2, IHa, IHb. reflexivity.
  - unfold e_sub at 1. rewrite eval_mk2, IHa, IHb. reflexivity.
  - unfold e_mul at 1. rewrite eval_mk2, IHa, IHb. reflexivity.
Qed.
Lemma gj_mag B d l c h e rho x : sz B d l c h e -> absval rho e = gj true rho x e O.
Proof.
  induction 1 as [k v d l c h Hd N|y d l c h Hd|a d l c h Ha IHa|a b d l c h Ha IHa Hb IHb|a b d l c h Ha IHa Hb IHb|a b d l c d2 l2 c2 h Ha IHa Hb IHb].
  - reflexivity.
  - cbn [gj e_var absval]. destruct (String.eqb y x); reflexivity.
  - exact IHa.
  - change (absval rho a + absval rho b = gj true rho x a O + gj true rho x b O). rewrite IHa, IHb. reflexivity.
  - change (absval rho a + absval rho b = gj true rho x a O + gj true rho x b O). rewrite IHa, IHb. reflexivity.
  - change (absval rho a * absval rho b = gj true rho x a O * gj true rho x b O). rewrite IHa, IHb. reflexivity.
Qed.
Lemma gj_Derive_n B d l c h e rho x : sz B d l c h e -> forall n t, Derive_n (evalx rho x e) n t = gj false (upd rho x t) x e n.
Proof.
  intros H. induction n as [|n IH]; intros t.
  - cbn [Derive_n]. unfold evalx. rewrite (gj_eval B d l c h e _ x H). reflexivity.
  - cbn [Derive_n]. rewrite (Derive_ext _ _ t IH). apply is_derive_unique. exact (gj_derive B d l c h e false rho x H n t).
Qed.
Lemma gj_magx B d l c h e rho x : sz B d l c h e -> forall n t, Derive_n (absvalx rho x e) n t = gj true (upd rho x t) x e n.
Proof.
  intros H. induction n as [|n IH]; intros t.
  - cbn [Derive_n]. exact (gj_mag B d l c h e (upd rho x t) x H).
  - cbn [Derive_n]. rewrite (Derive_ext _ _ t IH). apply is_derive_unique. exact (gj_derive B d l c h e true rho x H n t).
Qed.

(** ** what the user writes *)
Lemma f64_mult f B : is_f64 f -> f_finite f -> (B <= 900)%nat -> fR f = 0 \/ / 2 ^ B <= Rabs (fR f) -> mult (B + 52) (fR f).
Proof.
  intros If Ff HB [-> |L]; [apply (mult_int _ 0)|]. destruct (f64_format f If Ff) as [G _].
  assert (fR f <> 0) as Nz by (intros K; rewrite K, Rabs_R0 in L; pose proof (ipow2_pos B); lra).
  unfold generic_format in G. set (mz := Ztrunc _) in G. set (x := cexp _ _ _) in G.
  assert (- Z.of_nat (B + 52) <= x)%Z as Hx.
  { unfold x, cexp, SpecFloat.fexp, SpecFloat.emin. assert (- Z.of_nat B < mag radix2 (fR f))%Z; [|lia].
    apply mag_gt_bpow. rewrite bpow_neg. exact L. }
  rewrite G. unfold F2R. cbn [Fnum Fexp]. exists (mz * 2 ^ (x + Z.of_nat (B + 52)))%Z.
  replace x with ((x + Z.of_nat (B + 52)) + - Z.of_nat (B + 52))%Z at 1 by ring.
  rewrite bpow_plus, bpow_neg, mult_IZR. change (2 ^ (x + Z.of_nat (B + 52)))%Z with (radix2 ^ (x + Z.of_nat (B + 52)))%Z. rewrite IZR_Zpower by lia. ring.
Qed.
Lemma const_snice B n r f : (2 <= B)%nat -> (B <= 900)%nat -> num_R n = Some r -> nval n = Real f -> num_ok n -> is_f64 f -> rounds_to r f -> 1 <= r <= 4 -> snice (B + 52) B n r.
Proof.
  intros H2 HB E En O1 If R V. pose proof (pow2_le 2 B H2) as L2. replace (2 ^ 2) with 4 in L2 by ring.
  destruct (round_range r f 0 2 R ltac:(lia) ltac:(lia)) as (_ & F & W & G); [cbn [pow]; lra|]. cbn [pow] in W. rewrite Rinv_1 in W.
  split; [exact E|]. split; [exact O1|]. rewrite En. split; [exact If|]. split; [right; exists f; exact En|]. split; [exact F|]. split; [exact G|].
  cbn [val_f64]. split; [|rewrite !Rabs_pos_eq; lra].
  apply f64_mult; auto. right. rewrite Rabs_pos_eq by lra. pose proof (ipow2_le 0 B ltac:(lia)) as L1. cbn [pow] in L1. rewrite Rinv_1 in L1. lra.
Qed.
Lemma signed_snice B n : (2 <= B)%nat -> (B <= 900)%nat -> signed_num B n -> exists v, snice (B + 52) B n v.
Proof.
  intros H2 HB P. destruct P as [f If Ff V|z V Iz| |].
  - exists (fR f). assert (num_ok (sn_of_f64 f)) as O1 by exact (api_number_ok Debug _ (An_f64 Debug f If)).
    assert (Rabs (fR f) <= 2 ^ B) as Bf by (destruct V as [-> |V]; [rewrite Rabs_R0; apply Rlt_le, pow2_pos|lra]).
    split; [apply num_R_real, Ff|]. split; [exact O1|]. split; [exact If|]. split; [right; exists f; reflexivity|]. split; [exact Ff|].
    split; [exists 1; split; [apply good_one|cbn; ring]|]. split; [|split; exact Bf]. apply f64_mult; auto. destruct V as [V|V]; [left; exact V|right; apply V].
  - exists (IZR z). destruct (Nat.le_gt_cases (B + 52) 1000) as [L|L]; [|lia]. apply snice_int; auto; try lia.
    rewrite <- abs_IZR. apply Rle_trans with (IZR (2 ^ Z.of_nat B)); [apply IZR_le; lia|]. rewrite <- pow_IZR. lra.
  - exists PI. destruct PI_dec as [A C]. unfold pi_lo, pi_hi, Q2R in A, C. cbn [Qnum Qden] in A, C.
    apply (const_snice B sn_pi PI f_PI); auto; [exact (api_number_ok Debug _ (An_pi Debug))|exact (proj1 rounds_PI)|exact rounds_PI|lra].
  - exists (exp 1). destruct E_dec as [A C].
    apply (const_snice B sn_e (exp 1) f_E); auto; [exact (api_number_ok Debug _ (An_e Debug))|exact (proj1 rounds_E)|exact rounds_E|lra].
Qed.
Lemma spoly_d B e d l c h : spoly B e d l c h -> (1 <= d)%nat.
Proof. induction 1; lia. Qed.
Lemma spoly_sz B e d l c h : (2 <= B)%nat -> (B <= 900)%nat -> spoly B e d l c h -> sz B d l c h e.
Proof.
  intros H2 HB. induction 1 as [n P|y|a d l c h Ha IHa|a b d l c h d' l' c' h' Ha IHa Hb IHb|a b d l c h d' l' c' h' Ha IHa Hb IHb|a b d l c h d' l' c' h' Ha IHa Hb IHb].
  - destruct (signed_snice B n H2 HB P) as (v & N). apply (sz_num B n v); [lia|]. rewrite !Nat.mul_1_r, Nat.add_0_r. exact N.
  - apply sz_var. lia.
  - apply sz_neg, IHa.
  - apply sz_add; [apply (sz_le B d l c h a IHa)|apply (sz_le B d' l' c' h' b IHb)]; lia.
  - apply sz_sub; [apply (sz_le B d l c h a IHa)|apply (sz_le B d' l' c' h' b IHb)]; lia.
  - apply sz_mul; [apply (sz_le B d l c h a IHa)|apply (sz_le B d' l' c' h' b IHb)]; lia.
Qed.
Lemma sz_subst B x n v d l c h e : snice (B + 52) B n v -> sz B d l c h e -> sz B d l c h (subst x (e_num n) e).
Proof.
  intros N. induction 1 as [k w d l c h Hd Nk|y d l c h Hd|a d l c h Ha IHa|a b d l c h Ha IHa Hb IHb|a b d l c h Ha IHa Hb IHb|a b d l c d2 l2 c2 h Ha IHa Hb IHb].
  - apply (sz_num B k w); assumption.
  - cbn [subst e_var]. destruct (String.eqb y x); [|apply sz_var, Hd]. apply (sz_num B n v); [exact Hd|].
    apply (snice_le (B + 52) B); [nia|nia|exact N].
  - exact (sz_neg B _ _ _ _ _ IHa).
  - exact (sz_add B _ _ _ _ _ _ IHa IHb).
  - exact (sz_sub B _ _ _ _ _ _ IHa IHb).
  - exact (sz_mul B _ _ _ _ _ _ _ _ _ IHa IHb).
Qed.
Lemma gj_subst B x n v d l c h e s rho : snice (B + 52) B n v -> sz B d l c h e ->
  gj s rho x (subst x (e_num n) e) O = gj s (upd rho x (if s then Rabs v else v)) x e O.
Proof.
  intros N. induction 1 as [k w d l c h Hd Nk|y d l c h Hd|a d l c h Ha IHa|a b d l c h Ha IHa Hb IHb|a b d l c h Ha IHa Hb IHb|a b d l c d2 l2 c2 h Ha IHa Hb IHb].
  - reflexivity.
  - unfold e_var. cbn [subst gj]. unfold upd. destruct (String.eqb y x) eqn:E.
    + rewrite (gj_num s rho x n v (proj1 N)). reflexivity.
    + cbn [gj]. rewrite E. reflexivity.
  - change (subst x (e_num n) (e_neg a)) with (e_neg (subst x (e_num n) a)). rewrite !gj_neg. destruct s; [exact IHa|]. unfold negS. rewrite IHa. reflexivity.
  - change (subst x (e_num n) (e_add a b)) with (e_add (subst x (e_num n) a) (subst x (e_num n) b)). rewrite !gj_add. unfold addS. rewrite IHa, IHb. reflexivity.
  - change (subst x (e_num n) (e_sub a b)) with (e_sub (subst x (e_num n) a) (subst x (e_num n) b)). rewrite !gj_sub. destruct s; unfold addS, subS; rewrite IHa, IHb; reflexivity.
  - change (subst x (e_num n) (e_mul a b)) with (e_mul (subst x (e_num n) a) (subst x (e_num n) b)). rewrite !gj_mul. cbn [mulS]. rewrite IHa, IHb. reflexivity.
Qed.

(** ** division by the factorial *)
Lemma snice_div E q n v k z : (E + 62 <= 1000)%nat -> (q <= 1000)%nat -> snice E q n v -> (0 < k <= 2 ^ 62)%Z -> sn_div Debug n (sn_of_i64 k) = Ok z ->
  exists r t, num_R z = Some r /\ good 3 t /\ r = v / IZR k * t.
Proof.
  intros HE Hq Hn Hk H. pose proof (or_introl eq_refl : real_build Debug) as HD.
  pose proof Hn as (A & O1 & V & T & F & (t & G & Et) & M & Bv & Bs).
  assert (1 <= IZR k) as K1 by (apply (IZR_le 1); lia).
  assert (IZR k <= 2 ^ 62) as K2 by (rewrite pow_IZR; apply IZR_le; cbn; lia).
  assert (in_i64 k = true) as Ik by (apply in_i64_iff; unfold two63; lia).
  assert (num_ok (sn_of_i64 k)) as Kok by (apply (api_number_ok Debug), An_i64, Ik).
  destruct T as [T|T].
  { pose proof (sn_div_DS n (sn_of_i64 k) z T (ex_intro _ k (conj Ik eq_refl)) H) as S.
    pose proof (num_R_div n (sn_of_i64 k) z v (IZR k) O1 Kok S A (num_R_int k)) as R.
    exists (v / IZR k), 1. split; [apply R; lra|]. split; [apply good_one|ring]. }
  destruct (round_range (IZR k) (f_of_Z k) 0 62 (f_of_Z_rounds k) ltac:(lia) ltac:(lia) ltac:(cbn [pow] in *; lra)) as (Izk & Fk & Rk & tk & Gk & Ck).
  assert (/ 2 ^ 0 = 1) as P0 by (cbn; apply Rinv_1). rewrite P0 in Rk.
  destruct (sn_div_rounds Debug HD n (sn_of_i64 k) O1 V I (or_introl T) F Fk ltac:(cbn; lra)) as (z' & c & Ez & Ec & R).
  rewrite H in Ez. injection Ez as <-. rewrite sn_to_f64_eq in Ec by exact HD. injection Ec as <-.
  assert (val_is_zero (nval n) = false) as Z0 by (destruct T as (f & ->); reflexivity).
  unfold sn_div in H. rewrite guard_real, (val_div_real Debug _ _ HD (backed_real _ _ (or_introl T)) Z0) in H by exact HD. cbn [bind] in H. injection H as <-.
  rewrite wrap_real in *. cbn [nval val_f64 sn_of_i64 sn_of_val val_of_i64] in R |- *.
  set (g := st n) in *. set (gk := fR (f_of_Z k)) in *. set (w := f_div (val_f64 (nval n)) (f_of_Z k)) in *.
  assert (f_finite w /\ exists t3, good 1 t3 /\ fR w = g / gk * t3) as (Fw & t3 & G3 & E3).
  { destruct (Req_dec g 0) as [Zg|Nz].
    - destruct (f_of_Z_exact_small 0 ltac:(lia)) as [F0 E0]. assert (g / gk = IZR 0) as Q by (rewrite Zg; cbn; field; lra).
      destruct (rounds_to_exact _ w (f_of_Z 0) R (f_of_Z_is 0) F0 ltac:(rewrite E0, Q; reflexivity)) as [Fw Ew]. split; [exact Fw|].
      exists 1. split; [apply good_one|]. rewrite Ew. ring.
    - pose proof (mult_big E g M Nz) as Lo. pose proof (ipow2_pos E). pose proof (ipow2_pos 62). pose proof (pow2_pos q).
      assert (/ 2 ^ 62 <= / gk <= 1) as Bk by (split; [apply Rinv_le_contravar; lra|rewrite <- Rinv_1; apply Rinv_le_contravar; lra]).
      assert (Rabs (g / gk) = Rabs g * / gk) as Aq by (unfold Rdiv; rewrite Rabs_mult, (Rabs_pos_eq (/ gk)) by lra; reflexivity).
      pose proof (ipow2_le (E + 62) 1000 HE) as K. rewrite pow_add, Rinv_mult in K. pose proof (pow2_le q 1000 Hq). pose proof (ipow2_pos 1000).
      assert (/ 2 ^ E * / 2 ^ 62 <= Rabs g * / gk) by (apply Rmult_le_compat; lra).
      assert (Rabs g * / gk <= 2 ^ q * 1) by (apply Rmult_le_compat; lra).
      destruct (round_good _ w R ltac:(lra) ltac:(lra)) as (_ & Fw & G3). auto. }
  eexists. exists (t * / tk * t3). split; [apply num_R_real, Fw|]. pose proof (good_pos _ _ Gk).
  split; [exact (good_mul 2 1 _ t3 (good_mul 1 1 t _ G (good_inv 1 tk Gk)) G3)|].
  rewrite E3, Et, Ck. field. lra.
Qed.

Lemma sz_div B d l c h s k z rho x : ((B + 52) * d + 62 <= 1000)%nat -> (B * d + l <= 900)%nat -> sz B d l c h s -> nf s -> (0 < k <= 2 ^ 62)%Z ->
  num_aggregate Debug (e_div s (e_of_i64 k)) = Ok z -> exists t, good 3 t /\ eval rho z = Some (gj false rho x s O / IZR k * t).
Proof.
  intros LE L Hs Ns Hk E. assert ((B + 52) * d <= 1000)%nat as LE' by lia. destruct (agg2 ODiv s (e_of_i64 k) z eq_refl E) as (s' & k' & Es & Ek & St).
  injection Ek as <-. destruct (nf_agg B _ _ _ _ _ Hs LE' L Ns s' Es) as (_ & _ & J). destruct (sz_agg B _ _ _ _ _ Hs LE' L s' Es) as (Hs' & _ & _).
  rewrite <- (J false rho x O). clear J Es Hs Ns s E. rename s' into s, Hs' into Hs.
  assert (1 <= IZR k) as K1 by (apply (IZR_le 1); lia).
  pose proof (gj_eval B d l c h s rho x Hs) as Ev.
  inversion St; subst; clear St.
  - destruct (sz_num_inv B _ _ _ _ _ _ Hs) as (va & -> & Hd & Na).
    destruct (snice_div _ (B * d + l) x0 va k v LE ltac:(lia) Na Hk) as (r & t & R & G & Er); [assumption|].
    exists t. split; [exact G|]. change (gj false rho x (Expr (Operand (Num x0)) []) O) with (gj false rho x (e_num x0) O).
    rewrite (gj_num false rho x x0 va (proj1 Na)). cbn [cstS]. rewrite <- Er. exact R.
  - exists 1. split; [apply good_one|]. rewrite (sz_zero B _ _ _ _ _ false rho x Hs); [|assumption]. rewrite eval_zero. f_equal. field. lra.
  - exists 1. split; [apply good_one|]. unfold e_div. rewrite eval_mk2, Ev. unfold e_of_i64, e_num. rewrite eval_num, num_R_int. cbn [obind ev2].
    destruct (Req_EM_T (IZR k) 0); [lra|]. f_equal. ring.
Qed.

(** ** C93 *)
(** simplification: the value is right up to the counted roundings, relative to the size of the
    expression without cancellation, for all values of the variables *)
Theorem c93_simplify B e d l c h z rho : (2 <= B)%nat -> spoly B e d l c h -> ((B + 52) * d <= 1000)%nat -> (B * d + l <= 900)%nat ->
  num_aggregate Debug e = Ok z ->
  exists v v', eval rho e = Some v /\ eval rho z = Some v' /\ within c v v' (absval (absr rho) e).
Proof.
  intros H2 F LE L E. pose proof (spoly_d _ _ _ _ _ _ F) as Hd. assert (sz B d l c h e) as H by (apply spoly_sz; auto; nia).
  destruct (sz_agg B d l c h e H LE L z E) as (Pz & _ & C). destruct (C rho ""%string O) as [Er _].
  exists (gj false rho "" e O), (gj false rho "" z O). split; [exact (gj_eval B d l c h e rho _ H)|]. split; [exact (gj_eval B d l c h z rho _ Pz)|].
  unfold within. rewrite (gj_mag B d l c h e (absr rho) "" H). exact Er.
Qed.
Print Assumptions c93_simplify.

Lemma absr_upd rho x v y : absr (upd rho x v) y = upd (absr rho) x (Rabs v) y.
Proof. unfold absr, upd. destruct (String.eqb y x); reflexivity. Qed.

(** differentiation, any number of times *)
Theorem c93_derivative B e d l c h x n z rho : (2 <= B)%nat -> spoly B e d l c h -> ((B + 52) * d <= 1000)%nat -> (B * d + l + n * h <= 900)%nat ->
  deriv_n Debug x n e = Ok z ->
  exists v', eval rho z = Some v' /\
    within (n * (c + n * h)) (Derive_n (evalx rho x e) n (rho x)) v' (Derive_n (absvalx (absr rho) x e) n (Rabs (rho x))).
Proof.
  intros H2 F LE L E. pose proof (spoly_d _ _ _ _ _ _ F) as Hd. assert (sz B d l c h e) as H by (apply spoly_sz; auto; nia).
  destruct (sz_deriv_n B x n d l c h e z H LE L E) as (Pz & k & Hk & C). destruct (C rho O) as [Er _]. unfold shn in Er. rewrite Nat.add_0_r in Er.
  exists (gj false rho x z O). split; [exact (gj_eval _ _ _ _ _ z rho x Pz)|].
  rewrite (gj_Derive_n B d l c h e rho x H n (rho x)), (gj_magx B d l c h e (absr rho) x H n (Rabs (rho x))).
  rewrite (gj_ext B d l c h e false (upd rho x (rho x)) rho x (upd_self rho x) H), (gj_ext B d l c h e true (upd (absr rho) x (Rabs (rho x))) (absr rho) x (upd_self (absr rho) x) H).
  unfold within. apply (err_le k _ _ _ Hk); [apply (sz_nn B _ _ _ _ e rho x H)|exact Er].
Qed.
Print Assumptions c93_derivative.

(** Taylor expansion: coefficient j is f^(j)(a)/j! up to the counted roundings *)
Theorem c93_taylor B e d l c h x a av n t rho : (2 <= B)%nat -> spoly B e d l c h -> signed_num B a ->
  ((B + 52) * d <= 900)%nat -> (B * d + l + n * h <= 900)%nat ->
  taylor_expansion Debug e (e_var x) (e_num a) (Z.of_nat n) = Ok (ROk t) -> num_R a = Some av ->
  forall j, (j <= n)%nat -> exists cj v, nth_error (ex_coef t) j = Some cj /\ eval rho cj = Some v /\
    within ((j + 1) * (c + j * h) + 3) (Derive_n (evalx rho x e) j av / INR (fact j)) v
           (Derive_n (absvalx (absr rho) x e) j (Rabs av) / INR (fact j)).
Proof.
  intros H2 F Pa LE0 L E Ea j Hj. pose proof (spoly_d _ _ _ _ _ _ F) as Hd. assert (sz B d l c h e) as H by (apply spoly_sz; auto; nia).
  assert ((B + 52) * d <= 1000)%nat as LE by lia. assert (B <= 900)%nat as HB by nia.
  assert (n <= 20)%nat as Hn.
  { destruct (Nat.le_gt_cases n 20) as [K|K]; [exact K|]. exfalso.
    exact (proj1 (c34_debug_never_returns e (e_var x) (e_num a) (Z.of_nat n) t ltac:(lia)) E). }
  destruct (signed_snice B a H2 HB Pa) as (av' & Na). assert (av' = av) as -> by (pose proof (proj1 Na); congruence).
  apply c31_shape in E as (_ & _ & _ & _ & _ & Hc). destruct (Hc j Hj) as (dj & s & cj & E1 & E2 & E3 & E4).
  rewrite c31_factorial in E3 by lia.
  assert (j * h <= n * h)%nat as Jn by (apply Nat.mul_le_mono_r; exact Hj).
  destruct (sz_deriv_n B x j d l c h e dj H LE ltac:(lia) E1) as (Pd & k & Hk & C1).
  pose proof (sz_subst B x a av _ _ _ _ dj Na Pd) as Ps.
  assert (B * d + (l + j * h) <= 900)%nat as L' by lia.
  destruct (sz_agg B _ _ _ _ _ Ps LE L' s E2) as (Pz & Nz & C2).
  assert (0 < factZ j <= 2 ^ 62)%Z as Fj.
  { pose proof (factZ_pos j). split; [lia|]. assert (factZ j <= factZ 20)%Z by (unfold factZ; apply inj_le, fact_le; lia).
    assert (factZ 20 = 2432902008176640000)%Z as E20 by (do 20 rewrite factZ_S; reflexivity). lia. }
  assert ((B + 52) * d + 62 <= 1000)%nat as LE2 by lia.
  destruct (sz_div B _ _ _ _ s (factZ j) cj rho x LE2 L' Pz Nz Fj E3) as (t3 & G3 & V3).
  exists cj. eexists. split; [exact E4|]. split; [exact V3|].
  rewrite (gj_Derive_n B d l c h e rho x H j av), (gj_magx B d l c h e (absr rho) x H j (Rabs av)).
  pose proof (sz_nn B _ _ _ _ e (upd rho x av) x H j) as NA.
  destruct (C1 (upd rho x av) O) as [D1 M1]. destruct (C2 rho x O) as [D2 M2]. unfold shn in D1, M1. rewrite Nat.add_0_r in D1, M1.
  rewrite (gj_subst B x a av _ _ _ _ dj false rho Na Pd) in D2.
  rewrite (gj_subst B x a av _ _ _ _ dj true (absr rho) Na Pd) in D2, M2.
  rewrite (gj_ext B _ _ _ _ dj true _ _ x (absr_upd rho x av) Pd) in M1.
  rewrite (gj_ext B _ _ _ _ e true _ _ x (absr_upd rho x av) H) in D1, M1, NA.
  unfold factZ. rewrite <- INR_IZR_INZ.
  set (V0 := gj false (upd rho x av) x e j) in *. set (A0 := gj true (upd (absr rho) x (Rabs av)) x e j) in *.
  set (V1 := gj false (upd rho x av) x dj O) in *. set (A1 := gj true (upd (absr rho) x (Rabs av)) x dj O) in *.
  pose proof (sz_dom B _ _ _ _ s rho x Pz O) as DS.
  set (V2 := gj false rho x s O) in *. set (A2 := gj true (absr rho) x s O) in *. clearbody V0 A0 V1 A1 V2 A2.
  assert (near_j (k + (c + j * h)) (fun _ => V0) (fun _ => A0) (fun _ => V2) (fun _ => A2)) as Q.
  { apply (nj_trans k (c + j * h) _ _ (fun _ => V1) (fun _ => A1)); [intros _; exact NA|intros _; split; [exact D1|exact M1]|intros _; split; [exact D2|exact M2]]. }
  assert (near_j (k + (c + j * h) + 3) (fun _ => V0) (fun _ => A0) (fun _ => V2 * t3) (fun _ => 0)) as Q3.
  { apply (nj_trans _ 3 _ _ (fun _ => V2) (fun _ => A2)); [intros _; exact NA|exact Q|].
    pose proof (Rabs_pos V2). pose proof (amp_ge1 3). intros _. split; [|nra].
    apply Rle_trans with (1 := err_one 3 V2 t3 G3). apply Rmult_le_compat_l; lra. }
  destruct (Q3 O) as [Er _]. pose proof (lt_INR 0 (fact j) (lt_O_fact j)) as Pf. cbn [INR] in Pf.
  assert (k + (c + j * h) + 3 <= (j + 1) * (c + j * h) + 3)%nat as K by nia.
  unfold within. change (/ (1 - ulp_half) ^ ((j + 1) * (c + j * h) + 3)) with (amp ((j + 1) * (c + j * h) + 3)).
  replace (V2 / INR (fact j) * t3 - V0 / INR (fact j)) with ((V2 * t3 - V0) * / INR (fact j)) by (field; lra).
  rewrite Rabs_mult, (Rabs_pos_eq (/ INR (fact j))) by (apply Rlt_le, Rinv_0_lt_compat, Pf).
  replace ((amp ((j + 1) * (c + j * h) + 3) - 1) * (A0 / INR (fact j))) with ((amp ((j + 1) * (c + j * h) + 3) - 1) * A0 * / INR (fact j)) by (field; lra).
  apply Rmult_le_compat_r; [apply Rlt_le, Rinv_0_lt_compat, Pf|]. exact (err_le _ _ _ _ K NA Er).
Qed.
Print Assumptions c93_taylor.

(** what [within] means in plain terms *)
Theorem c93_absolute k v v' M : (Z.of_nat k <= 2 ^ 40)%Z -> within k v v' M -> 0 <= M -> Rabs (v' - v) <= 2 * INR k * ulp_half * M.
Proof.
  intros K W P. apply Rle_trans with (1 := W). apply Rmult_le_compat_r; [exact P|].
  pose proof (c92_relative k 1 (amp k) K) as R. rewrite Rabs_R1, Rmult_1_r in R. apply Rle_trans with (2 := R ltac:(
    exists (amp k); split; [ring|]; split; [|apply Rle_refl]; pose proof (amp_ge1 k); pose proof u_small;
    apply Rle_trans with 1; [apply Rle_trans with (1 ^ k); [apply pow_incr; change ulp_half with u; lra|rewrite pow1; lra]|assumption])).
  apply Rle_abs.
Qed.
Print Assumptions c93_absolute.

(** the size does bound the value, and equals it when nothing can cancel *)
Theorem c93_size B e d l c h rho : (2 <= B)%nat -> (B <= 900)%nat -> spoly B e d l c h ->
  exists v, eval rho e = Some v /\ Rabs v <= absval (absr rho) e.
Proof.
  intros H2 HB F. pose proof (spoly_sz B e d l c h H2 HB F) as H. exists (gj false rho "" e O).
  split; [exact (gj_eval B d l c h e rho _ H)|]. rewrite (gj_mag B d l c h e (absr rho) "" H). apply (sz_dom B _ _ _ _ e rho "" H).
Qed.
Print Assumptions c93_size.

(** a case with cancellation: (0.5*x - 2.5)*x - pi, expanded at -3 to order 2, in a debug build *)
Definition ex_spoly : expr :=
  e_sub (e_mul (e_sub (e_mul (e_num (sn_of_f64 f_half)) (e_var "x")) (e_num (sn_of_f64 f_2_5))) (e_var "x")) (e_neg (e_num sn_pi)).
Example c93_witness : spoly 2 ex_spoly 3 2 12 6 /\ signed_num 2 (sn_of_i64 (-3)) /\
  (exists z, num_aggregate Debug ex_spoly = Ok z) /\ (exists z, deriv_n Debug "x" 2 ex_spoly = Ok z) /\
  exists t, taylor_expansion Debug ex_spoly (e_var "x") (e_of_i64 (-3)) 2 = Ok (ROk t).
Proof.
  destruct f_2_5_ok as [I2 V2]. destruct f_half_ok as [Ih Vh]. split.
  - assert (spoly 2 (e_num (sn_of_f64 f_2_5)) 1 0 0 0) as P1 by (apply sp_num, sg_f64; [exact I2|exact I|right; rewrite V2, Rabs_pos_eq; lra]).
    assert (spoly 2 (e_num (sn_of_f64 f_half)) 1 0 0 0) as P2 by (apply sp_num, sg_f64; [exact Ih|exact I|right; rewrite Vh, Rabs_pos_eq; lra]).
    exact (sp_sub 2 _ _ _ _ _ _ _ _ _ _ (sp_mul 2 _ _ _ _ _ _ _ _ _ _ (sp_sub 2 _ _ _ _ _ _ _ _ _ _ (sp_mul 2 _ _ _ _ _ _ _ _ _ _ P2 (sp_var 2 "x")) P1) (sp_var 2 "x"))
      (sp_neg 2 _ _ _ _ _ (sp_num 2 _ (sg_pi 2)))).
  - split; [apply sg_int; [cbn; lia|reflexivity]|]. repeat split; eexists; vm_compute; reflexivity.
Qed.
