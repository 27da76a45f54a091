(** * RationalProofs: lemmas for rational.rs *)
From Coq Require Import ZArith QArith List Bool Lia Znumtheory.
From Verif Require Import Base Float Rational SmartNum Ast Spec BaseProofs.
Open Scope Z_scope.
Open Scope res_scope.

(** ** Euclid *)
Definition zbits (b : Z) : nat := match b with Zpos p => Pos.size_nat p | _ => O end.

Lemma zbits_double b c : 0 <= c -> 0 < b -> 2 * c < b -> (zbits c < zbits b)%nat.
Proof.
  intros Hc Hb H. destruct c as [|p|p]; destruct b as [|q|q]; try lia; simpl.
  - destruct q; simpl; lia.
  - assert (Pos.size_nat (xO p) <= Pos.size_nat q)%nat.
    { apply Pos.size_nat_monotone. lia. }
    simpl in *. lia.
Qed.

Lemma gcd_loop_correct : forall n fuel a b,
  0 <= a -> 0 <= b -> (zbits b <= n)%nat -> (2 * n + 1 <= fuel)%nat ->
  gcd_loop fuel a b = Z.gcd a b.
Proof.
  induction n as [|n IH]; intros fuel a b Ha Hb Hn Hf.
  - assert (b = 0) as ->.
    { destruct b as [|p|p]; [reflexivity| |lia]. simpl in Hn. destruct p; simpl in Hn; lia. }
    destruct fuel; [lia|]. simpl. rewrite Z.gcd_0_r. lia.
  - destruct fuel as [|fuel]; [lia|]. cbn [gcd_loop].
    destruct (Z.eqb_spec b 0) as [->|Hb0].
    { rewrite Z.gcd_0_r. lia. }
    assert (0 <= a mod b < b) as Hr by (apply Z.mod_pos_bound; lia).
    rewrite (Z.gcd_comm a b), <- (Z.gcd_mod a b) by lia.
    rewrite (Z.gcd_comm (a mod b) b).
    destruct fuel as [|fuel]; [lia|]. cbn [gcd_loop].
    destruct (Z.eqb_spec (a mod b) 0) as [->|Hr0].
    { rewrite Z.gcd_0_r. lia. }
    assert (0 <= b mod (a mod b) < a mod b) as Hr2 by (apply Z.mod_pos_bound; lia).
    rewrite (IH fuel (a mod b) (b mod (a mod b))); try lia.
    + rewrite Z.gcd_comm, Z.gcd_mod by lia. apply Z.gcd_comm.
    + assert (zbits (b mod (a mod b)) < zbits b)%nat; [|lia].
      apply zbits_double; try lia.
      pose proof (Z.div_mod b (a mod b) Hr0).
      assert (1 <= b / (a mod b)) by (apply Z.div_le_lower_bound; lia).
      nia.
Qed.

Lemma gcd_correct a b : 0 <= a -> 0 <= b -> gcd a b = Z.gcd a b.
Proof.
  intros Ha Hb. unfold gcd. apply (gcd_loop_correct (zbits b)); try lia.
  unfold zbits. lia.
Qed.

(** ** reduce *)
Lemma reduce_div x :
  0 <= rnum x -> 0 <= rden x ->
  exists g, 0 < g /\ rnum x = g * rnum (rat_reduce x) /\ rden x = g * rden (rat_reduce x)
    /\ rsign (rat_reduce x) = rsign x
    /\ (rnum x <> 0 \/ rden x <> 0 -> g = Z.gcd (rnum x) (rden x)).
Proof.
  intros Hn Hd. unfold rat_reduce, reduce_divisor, u64_div. rewrite gcd_correct by assumption.
  pose proof (Z.gcd_nonneg (rnum x) (rden x)) as Hg.
  destruct (Z.eqb_spec (Z.gcd (rnum x) (rden x)) 0) as [E|E]; simpl.
  - apply Z.gcd_eq_0 in E as [E1 E2]. rewrite E1, E2.
    exists 1. repeat split; try lia; intros; lia.
  - exists (Z.gcd (rnum x) (rden x)). split; [lia|].
    destruct (Z.gcd_divide_l (rnum x) (rden x)) as [p Hp].
    destruct (Z.gcd_divide_r (rnum x) (rden x)) as [q Hq].
    set (g := Z.gcd (rnum x) (rden x)) in *.
    split; [rewrite Hp at 2; rewrite Z.div_mul by assumption; lia|].
    split; [rewrite Hq at 2; rewrite Z.div_mul by assumption; lia|].
    split; [reflexivity|]. intros _. reflexivity.
Qed.

Lemma reduce_sign x : rsign (rat_reduce x) = rsign x.
Proof. reflexivity. Qed.

Lemma reduce_lowest x :
  0 <= rnum x -> 0 <= rden x -> rnum x <> 0 \/ rden x <> 0 -> lowest_terms (rat_reduce x).
Proof.
  intros Hn Hd H0. destruct (reduce_div x Hn Hd) as (g & Hg & H1 & H2 & _ & H3).
  specialize (H3 H0). unfold lowest_terms.
  assert (g * Z.gcd (rnum (rat_reduce x)) (rden (rat_reduce x)) = g * 1) as E.
  { rewrite <- (Z.gcd_mul_mono_l_nonneg _ _ g) by lia. rewrite <- H1, <- H2. lia. }
  apply Z.mul_reg_l in E; lia.
Qed.

Lemma reduce_bounds x :
  0 <= rnum x -> 0 <= rden x ->
  0 <= rnum (rat_reduce x) <= rnum x /\ 0 <= rden (rat_reduce x) <= rden x /\
  (0 < rden x -> 0 < rden (rat_reduce x)) /\ (rnum x = 0 <-> rnum (rat_reduce x) = 0) /\
  (rden x = 0 <-> rden (rat_reduce x) = 0).
Proof.
  intros Hn Hd. destruct (reduce_div x Hn Hd) as (g & Hg & H1 & H2 & _ & _).
  repeat split; try nia; intros; nia.
Qed.

Lemma reduce_Q x :
  0 <= rnum x -> 0 < rden x -> (ratQ (rat_reduce x) == ratQ x)%Q.
Proof.
  intros Hn Hd. destruct (reduce_div x Hn) as (g & Hg & H1 & H2 & _ & _); [lia|].
  assert (0 < rden (rat_reduce x)) as Hd' by nia.
  unfold ratQ, Qeq. cbn [Qnum Qden].
  rewrite !Z2Pos.id by lia. rewrite reduce_sign.
  transitivity (rsign x * (g * rnum (rat_reduce x)) * rden (rat_reduce x)).
  - rewrite H2 at 1. ring.
  - rewrite <- H1. reflexivity.
Qed.

(** two fractions in lowest terms with equal values are equal *)
Lemma lowest_unique a b c d :
  0 <= a -> 0 < b -> 0 <= c -> 0 < d -> Z.gcd a b = 1 -> Z.gcd c d = 1 ->
  a * d = c * b -> a = c /\ b = d.
Proof.
  intros Ha Hb Hc Hd Hg1 Hg2 E.
  assert (b | d).
  { apply (Gauss b a d). - exists c. lia.
    - apply Zgcd_1_rel_prime. rewrite Z.gcd_comm. assumption. }
  assert (d | b).
  { apply (Gauss d c b). - exists a. lia.
    - apply Zgcd_1_rel_prime. rewrite Z.gcd_comm. assumption. }
  assert (b = d) by (apply Z.divide_antisym_nonneg; lia || assumption).
  subst. split; [nia|reflexivity].
Qed.

Lemma reduce_idem x :
  0 <= rnum x -> 0 <= rden x -> rat_reduce (rat_reduce x) = rat_reduce x.
Proof.
  intros Hn Hd.
  destruct (reduce_bounds x Hn Hd) as (B1 & B2 & _ & B4 & B5).
  destruct (reduce_div (rat_reduce x)) as (g & Hg & H1 & H2 & _ & H3); try lia.
  assert (g = 1 \/ (rnum (rat_reduce x) = 0 /\ rden (rat_reduce x) = 0)) as [->|[Z1 Z2]].
  { destruct (Z.eq_dec (rnum x) 0) as [E|E]; [destruct (Z.eq_dec (rden x) 0) as [F|F]|].
    - right. split; [apply B4|apply B5]; assumption.
    - left. rewrite H3 by (right; intro; apply F, B5; assumption).
      apply reduce_lowest; tauto.
    - left. rewrite H3 by (left; intro; apply E, B4; assumption).
      apply reduce_lowest; tauto. }
  - pose proof (reduce_sign (rat_reduce x)) as HS.
    destruct (rat_reduce (rat_reduce x)) as [s n d].
    destruct (rat_reduce x) as [s' n' d']. cbn [rsign rnum rden] in *. f_equal; lia.
  - destruct (rat_reduce x) as [s' n' d'] eqn:E2. simpl in *. subst. reflexivity.
Qed.

(** ** equality *)
Lemma rat_eqb_iff x y : rat_valid x -> rat_valid y ->
  (rat_eqb x y = true <-> (ratQ x == ratQ y)%Q).
Proof.
  intros (Hs1 & Hn1 & Hd1) (Hs2 & Hn2 & Hd2).
  rewrite <- (reduce_Q x), <- (reduce_Q y) by lia.
  pose proof (reduce_bounds x ltac:(lia) ltac:(lia)) as (X1 & X2 & X3 & _ & _).
  pose proof (reduce_bounds y ltac:(lia) ltac:(lia)) as (Y1 & Y2 & Y3 & _ & _).
  pose proof (reduce_lowest x ltac:(lia) ltac:(lia) ltac:(right; lia)) as LX.
  pose proof (reduce_lowest y ltac:(lia) ltac:(lia) ltac:(right; lia)) as LY.
  rewrite <- (reduce_sign x) in Hs1. rewrite <- (reduce_sign y) in Hs2.
  unfold rat_eqb. cbn zeta.
  set (x' := rat_reduce x) in *. set (y' := rat_reduce y) in *.
  specialize (X3 ltac:(lia)). specialize (Y3 ltac:(lia)).
  unfold ratQ, Qeq. cbn [Qnum Qden]. rewrite !Z2Pos.id by lia.
  rewrite orb_true_iff, !andb_true_iff, !Z.eqb_eq.
  unfold lowest_terms in *. split.
  - intros [[[-> ->] ->]|[-> ->]]; lia.
  - intros E. destruct (Z.eq_dec (rnum x') 0) as [Zx|Zx].
    + right. split; [assumption|]. rewrite Zx in E. nia.
    + left. assert (rsign x' = rsign y') as S by nia.
      rewrite S in E.
      assert (rnum x' * rden y' = rnum y' * rden x') as E' by nia.
      destruct (lowest_unique _ _ _ _ (proj1 X1) X3 (proj1 Y1) Y3 LX LY E') as [-> ->].
      repeat split; assumption.
Qed.

(** ** construction *)
Lemma rat_new_spec m s n d : in_i64 s = true ->
  rat_new m s n d =
    if (s =? - two63) && negb match m with Release => true | _ => false end
    then (match m with Debug => Panic | _ => Trap end)
    else Ok (if ((s =? 1) || (s =? -1)) && negb (d =? 0) then Some (mkRat s n d) else None).
Proof.
  intros Hs. apply in_i64_iff in Hs. unfold rat_new, i64_abs, ovf_i64.
  destruct (in_i64 (Z.abs s)) eqn:E.
  - cbn [bind]. apply in_i64_iff in E.
    destruct (Z.eqb_spec s (- two63)) as [->|Hne]; [exfalso; unfold two63 in *; lia|].
    cbn [andb].
    assert ((Z.abs s =? 1) = ((s =? 1) || (s =? -1))) as -> by lia. reflexivity.
  - assert (s = - two63) as ->.
    { assert (~ (- two63 <= Z.abs s < two63)) by (rewrite <- in_i64_iff; congruence). lia. }
    destruct m; reflexivity.
Qed.

(** ** arithmetic *)
Lemma rat_mul_exact m x y z : m <> Release -> rat_valid x -> rat_valid y ->
  rat_mul m x y = Ok z ->
  rat_valid z /\ lowest_terms z /\ (ratQ z == ratQ x * ratQ y)%Q.
Proof.
  intros Hm (Hs1 & Hn1 & Hd1) (Hs2 & Hn2 & Hd2) H. unfold rat_mul, i64_mul, u64_mul in H.
  repeat inv_bind H. injection H as <-.
  apply ovf_i64_exact in Hb as [-> _]; [|assumption].
  apply ovf_u64_exact in Hb0 as [-> B1]; [|assumption].
  apply ovf_u64_exact in Hb1 as [-> B2]; [|assumption].
  set (w := mkRat _ _ _).
  assert (0 < rden w) by (simpl; nia). assert (0 <= rnum w) by (simpl; nia).
  pose proof (reduce_bounds w ltac:(assumption) ltac:(lia)) as (X1 & X2 & X3 & _ & _).
  split; [|split].
  - unfold rat_valid. rewrite reduce_sign. simpl in *. lia.
  - apply reduce_lowest; lia.
  - rewrite reduce_Q by lia. unfold w, ratQ, Qeq, Qmult. cbn [Qnum Qden rsign rnum rden].
    rewrite Pos2Z.inj_mul, !Z2Pos.id by nia. ring.
Qed.

Lemma rat_div_exact m x y z : m <> Release -> rat_valid x -> rat_valid y -> rnum y <> 0 ->
  rat_div m x y = Ok z ->
  rat_valid z /\ lowest_terms z /\ (ratQ z == ratQ x / ratQ y)%Q.
Proof.
  intros Hm (Hs1 & Hn1 & Hd1) (Hs2 & Hn2 & Hd2) Hy H. unfold rat_div, i64_mul, u64_mul in H.
  repeat inv_bind H. injection H as <-.
  apply ovf_i64_exact in Hb as [-> _]; [|assumption].
  apply ovf_u64_exact in Hb0 as [-> B1]; [|assumption].
  apply ovf_u64_exact in Hb1 as [-> B2]; [|assumption].
  set (w := mkRat _ _ _).
  assert (0 < rden w) by (simpl; nia). assert (0 <= rnum w) by (simpl; nia).
  pose proof (reduce_bounds w ltac:(assumption) ltac:(lia)) as (X1 & X2 & X3 & _ & _).
  split; [|split].
  - unfold rat_valid. rewrite reduce_sign. simpl in *. lia.
  - apply reduce_lowest; lia.
  - rewrite reduce_Q by lia.
    assert (~ ratQ y == 0)%Q as Hy0.
    { unfold ratQ, Qeq. simpl. nia. }
    apply Qmult_inj_r with (z := ratQ y); [assumption|].
    unfold Qdiv. rewrite <- Qmult_assoc, (Qmult_comm (/ ratQ y)), Qmult_inv_r by assumption.
    rewrite Qmult_1_r.
    unfold w, ratQ, Qeq, Qmult. cbn [Qnum Qden rsign rnum rden].
    rewrite Pos2Z.inj_mul, !Z2Pos.id by nia.
    assert (rsign y * rsign y = 1) by (destruct Hs2 as [-> | [-> | [_ ?]]]; lia).
    replace (rsign x * rsign y * (rnum x * rden y) * (rsign y * rnum y) * rden x)
      with ((rsign y * rsign y) * (rsign x * rnum x * rden y * rnum y * rden x)) by ring.
    rewrite H1. ring.
Qed.

(** exactly when a product panics in debug *)
Lemma sign_mul_in x y : rat_valid x -> rat_valid y ->
  - two63 <= rsign x * rsign y < two63.
Proof. intros [H1 _] [H2 _]. unfold two63. nia. Qed.

Lemma rat_mul_panic x y : rat_valid x -> rat_valid y ->
  (rat_mul Debug x y = Panic <-> (two64 <= rnum x * rnum y \/ two64 <= rden x * rden y)).
Proof.
  intros Hx Hy. unfold rat_mul, i64_mul, u64_mul.
  rewrite ovf_i64_in by (apply sign_mul_in; assumption). cbn [bind]. unfold ovf_u64.
  destruct Hx as (Hs1 & Hn1 & Hd1), Hy as (Hs2 & Hn2 & Hd2).
  destruct (in_u64 (rnum x * rnum y)) eqn:E1; cbn [bind].
  - destruct (in_u64 (rden x * rden y)) eqn:E2; cbn [bind].
    + apply in_u64_iff in E1, E2. split; [discriminate | lia].
    + assert (~ (0 <= rden x * rden y < two64)) by (rewrite <- in_u64_iff; congruence).
      split; [nia | reflexivity].
  - assert (~ (0 <= rnum x * rnum y < two64)) by (rewrite <- in_u64_iff; congruence).
    split; [nia | reflexivity].
Qed.

Lemma rat_div_panic x y : rat_valid x -> rat_valid y ->
  (rat_div Debug x y = Panic <-> (two64 <= rnum x * rden y \/ two64 <= rden x * rnum y)).
Proof.
  intros Hx Hy. unfold rat_div, i64_mul, u64_mul.
  rewrite ovf_i64_in by (apply sign_mul_in; assumption). cbn [bind]. unfold ovf_u64.
  destruct Hx as (Hs1 & Hn1 & Hd1), Hy as (Hs2 & Hn2 & Hd2).
  destruct (in_u64 (rnum x * rden y)) eqn:E1; cbn [bind].
  - destruct (in_u64 (rden x * rnum y)) eqn:E2; cbn [bind].
    + apply in_u64_iff in E1, E2. split; [discriminate | lia].
    + assert (~ (0 <= rden x * rnum y < two64)) by (rewrite <- in_u64_iff; congruence).
      split; [nia | reflexivity].
  - assert (~ (0 <= rnum x * rden y < two64)) by (rewrite <- in_u64_iff; congruence).
    split; [nia | reflexivity].
Qed.

(** ** sum and difference *)
Definition sum_in_range (op : Z -> Z -> Z) (x y : rat) : Prop :=
  rnum x * rden y < two63 /\ rnum y * rden x < two63 /\
  Z.abs (op (rsign x * (rnum x * rden y)) (rsign y * (rnum y * rden x))) < two63 /\
  rden x * rden y < two64.

Lemma finish_spec m s d1 d2 : Z.abs s < two63 -> 0 < d1 -> 0 < d2 -> d1 * d2 < two64 ->
  exists z, rat_finish m s d1 d2 = Ok z /\ lowest_terms z /\ rsign z = Z.sgn s /\
    0 <= rnum z < two64 /\ 0 < rden z < two64 /\ (ratQ z == s # Z.to_pos (d1 * d2))%Q.
Proof.
  intros Hs H1 H2 H3. unfold rat_finish, i64_abs, u64_mul, i64_signum.
  rewrite ovf_i64_in by lia. cbn [bind].
  rewrite cast_u64_in by (unfold two63, two64 in *; lia). cbn [bind].
  rewrite ovf_u64_in by nia. cbn [bind].
  eexists. split; [reflexivity|]. set (w := mkRat _ _ _).
  assert (0 < rden w) by (simpl; nia). assert (0 <= rnum w) by (simpl; nia).
  pose proof (reduce_bounds w ltac:(assumption) ltac:(lia)) as (X1 & X2 & X3 & _ & _).
  split; [apply reduce_lowest; lia|]. split; [reflexivity|].
  cbn [rnum rden w] in *.
  split; [unfold two63, two64 in *; lia|]. split; [nia|].
  rewrite reduce_Q by (simpl; nia). unfold w, ratQ, Qeq. cbn [Qnum Qden rsign rnum rden].
  assert (Z.sgn s * Z.abs s = s) as -> by (rewrite Z.mul_comm; apply Z.abs_sgn). reflexivity.
Qed.

Lemma cross_spec m n d s : 0 <= n -> 0 <= d -> n * d < two63 -> (s = 1 \/ s = -1 \/ s = 0) ->
  rat_cross m n d s = Ok (s * (n * d)).
Proof.
  intros Hn Hd H Hs. unfold rat_cross, u64_mul, i64_mul.
  rewrite ovf_u64_in by (unfold two63, two64 in *; nia). cbn [bind].
  rewrite cast_i64_in by (unfold two63 in *; nia). cbn [bind].
  rewrite ovf_i64_in by (unfold two63 in *; nia). f_equal. ring.
Qed.

Lemma Qplus_frac a b c d : 0 < c -> 0 < d ->
  ((a # Z.to_pos c) + (b # Z.to_pos d) == (a * d + b * c) # Z.to_pos (c * d))%Q.
Proof.
  intros Hc Hd. unfold Qeq, Qplus. cbn [Qnum Qden].
  rewrite Pos2Z.inj_mul, !Z2Pos.id by nia. ring.
Qed.

Lemma rat_add_spec m x y : rat_valid x -> rat_valid y -> sum_in_range Z.add x y ->
  exists z, rat_add m x y = Ok z /\ lowest_terms z /\ 0 <= rnum z < two64 /\
    0 < rden z < two64 /\ (ratQ z == ratQ x + ratQ y)%Q /\ rsign z = Z.sgn (Qnum (ratQ x + ratQ y)).
Proof.
  intros (Hs1 & Hn1 & Hd1) (Hs2 & Hn2 & Hd2) (R1 & R2 & R3 & R4). unfold rat_add.
  rewrite cross_spec by (try lia). cbn [bind].
  rewrite cross_spec by (try lia). cbn [bind].
  rewrite (Z.mul_comm (rden x) (rnum y)).
  unfold i64_add. rewrite ovf_i64_in by lia. cbn [bind].
  destruct (finish_spec m (rsign x * (rnum x * rden y) + rsign y * (rnum y * rden x))
              (rden x) (rden y)) as (z & -> & Z1 & Z2 & Z3 & Z4 & Z5); try lia.
  exists z. split; [reflexivity|]. split; [assumption|]. split; [assumption|].
  split; [assumption|]. split.
  - rewrite Z5. unfold ratQ. rewrite Qplus_frac by lia.
    unfold Qeq. cbn [Qnum Qden]. ring.
  - rewrite Z2. unfold ratQ, Qplus. cbn [Qnum Qden].
    rewrite !Z2Pos.id by lia. f_equal. ring.
Qed.

Lemma rat_sub_spec m x y : rat_valid x -> rat_valid y -> sum_in_range Z.sub x y ->
  exists z, rat_sub m x y = Ok z /\ lowest_terms z /\ 0 <= rnum z < two64 /\
    0 < rden z < two64 /\ (ratQ z == ratQ x - ratQ y)%Q /\ rsign z = Z.sgn (Qnum (ratQ x - ratQ y)).
Proof.
  intros (Hs1 & Hn1 & Hd1) (Hs2 & Hn2 & Hd2) (R1 & R2 & R3 & R4). unfold rat_sub.
  rewrite cross_spec by (try lia). cbn [bind].
  rewrite cross_spec by (try lia). cbn [bind].
  rewrite (Z.mul_comm (rden x) (rnum y)).
  unfold i64_sub. rewrite ovf_i64_in by lia. cbn [bind].
  destruct (finish_spec m (rsign x * (rnum x * rden y) - rsign y * (rnum y * rden x))
              (rden x) (rden y)) as (z & -> & Z1 & Z2 & Z3 & Z4 & Z5); try lia.
  exists z. split; [reflexivity|]. split; [assumption|]. split; [assumption|].
  split; [assumption|]. split.
  - rewrite Z5. unfold ratQ, Qminus, Qopp. cbn [Qnum Qden]. rewrite Qplus_frac by lia.
    unfold Qeq. cbn [Qnum Qden]. ring.
  - rewrite Z2. unfold ratQ, Qminus, Qopp, Qplus. cbn [Qnum Qden].
    rewrite !Z2Pos.id by lia. f_equal. ring.
Qed.

(** ** invariants in every mode *)
Lemma rat_valid_inv x : rat_valid x -> rat_inv x.
Proof. unfold rat_valid, rat_inv. intuition lia. Qed.

Lemma rat_inv_valid x : rat_inv x -> rden x <> 0 -> rat_valid x.
Proof. unfold rat_valid, rat_inv. intuition lia. Qed.

Lemma reduce_inv x : rat_inv x -> rat_inv (rat_reduce x).
Proof.
  intros (Hs & Hn & Hd).
  destruct (reduce_bounds x ltac:(lia) ltac:(lia)) as (X1 & X2 & _ & X4 & _).
  unfold rat_inv. rewrite reduce_sign. intuition lia.
Qed.

Lemma rat_of_i64_inv m v r : in_i64 v = true -> rat_of_i64 m v = Ok r ->
  rat_valid r /\ rden r = 1 /\ rnum r = Z.abs v /\ rsign r = (if v =? 0 then 1 else Z.sgn v).
Proof.
  intros Hv H. apply in_i64_iff in Hv. unfold rat_of_i64, i64_abs in H.
  assert (exists n, bind (ovf_i64 m (Z.abs v)) (fun a => cast_u64 m a) = Ok n /\
            r = mkRat (if v =? 0 then 1 else Z.sgn v) n 1) as (n & Hn & ->).
  { inv_bind H. inv_bind H. injection H as <-. exists a0. split; [|reflexivity].
    rewrite Hb. cbn [bind]. assumption. }
  apply abs_as_u64 in Hn; [|assumption]. subst n. unfold rat_valid. cbn [rsign rnum rden].
  unfold two63, two64 in *.
  destruct (Z.eqb_spec v 0); repeat split; try lia.
Qed.

Lemma rat_of_i64_Q m v r : in_i64 v = true -> rat_of_i64 m v = Ok r ->
  (ratQ r == inject_Z v)%Q.
Proof.
  intros Hv H. apply rat_of_i64_inv in H as (_ & H1 & H2 & H3); [|assumption].
  unfold ratQ, Qeq. rewrite H1, H2, H3. cbn [Qnum Qden inject_Z Z.to_pos].
  destruct (Z.eqb_spec v 0); lia.
Qed.

Lemma rat_finish_inv m s d1 d2 z : - two63 <= s < two63 -> rat_finish m s d1 d2 = Ok z -> rat_inv z.
Proof.
  intros Hs H. unfold rat_finish, i64_abs, u64_mul, i64_signum in H.
  inv_bind H. inv_bind H. inv_bind H. injection H as <-.
  assert (a0 = Z.abs s) as ->.
  { apply (abs_as_u64 m s); [assumption|]. rewrite Hb. exact Hb0. }
  apply ovf_u64_ok in Hb1. apply reduce_inv. unfold rat_inv. cbn [rsign rnum rden].
  unfold two63, two64 in *. repeat split; lia.
Qed.

Lemma rat_add_inv m x y z : rat_add m x y = Ok z -> rat_inv z.
Proof.
  unfold rat_add, i64_add. intros H. do 3 inv_bind H.
  apply rat_finish_inv in H; [assumption|]. apply ovf_i64_ok in Hb1. assumption.
Qed.
Lemma rat_sub_inv m x y z : rat_sub m x y = Ok z -> rat_inv z.
Proof.
  unfold rat_sub, i64_sub. intros H. do 3 inv_bind H.
  apply rat_finish_inv in H; [assumption|]. apply ovf_i64_ok in Hb1. assumption.
Qed.

Lemma sign_mul_in' x y : rat_inv x -> rat_inv y -> - two63 <= rsign x * rsign y < two63.
Proof. intros [H1 _] [H2 _]. unfold two63. nia. Qed.

Lemma rat_mul_inv m x y z : rat_inv x -> rat_inv y -> rat_mul m x y = Ok z -> rat_inv z.
Proof.
  intros Hx Hy H. unfold rat_mul, i64_mul, u64_mul in H. do 3 inv_bind H. injection H as <-.
  apply reduce_inv. rewrite ovf_i64_in in Hb by (apply sign_mul_in'; assumption).
  injection Hb as <-.
  pose proof (ovf_u64_ok _ _ _ Hb0). apply ovf_u64_ok in Hb1.
  destruct Hx as (Hs1 & _), Hy as (Hs2 & _).
  unfold rat_inv. cbn [rsign rnum rden]. repeat split; try lia.
  assert (rsign x * rsign y = 0 -> a0 = 0).
  { intros. assert (rnum x * rnum y = 0) as E by nia. rewrite E in Hb0.
    cbv in Hb0. congruence. }
  nia.
Qed.

(** a quotient keeps the invariant when a divisor of sign 0 has denominator 0 (zero fractions
    of sign 0 never reach SmartNum division: [wrap_val] turns them into the integer 0) *)
Lemma rat_div_inv m x y z : rat_inv x -> rat_inv y -> (rsign y = 0 -> rden y = 0) ->
  rat_div m x y = Ok z -> rat_inv z.
Proof.
  intros Hx Hy H0 H. unfold rat_div, i64_mul, u64_mul in H. do 3 inv_bind H. injection H as <-.
  apply reduce_inv. rewrite ovf_i64_in in Hb by (apply sign_mul_in'; assumption).
  injection Hb as <-.
  pose proof (ovf_u64_ok _ _ _ Hb0). apply ovf_u64_ok in Hb1.
  destruct Hx as (Hs1 & _), Hy as (Hs2 & _).
  unfold rat_inv. cbn [rsign rnum rden]. repeat split; try lia.
  assert (rsign x * rsign y = 0 -> a0 = 0).
  { intros. assert (rnum x * rden y = 0) as E by nia. rewrite E in Hb0.
    cbv in Hb0. congruence. }
  nia.
Qed.

Lemma rat_neg_inv m x z : rat_inv x -> rat_neg m x = Ok z ->
  rat_inv z /\ rsign z = - rsign x /\ rnum z = rnum x /\ rden z = rden x.
Proof.
  intros (H1 & H2 & H3) H. unfold rat_neg, i64_neg in H. rewrite ovf_i64_in in H.
  - cbn [bind] in H. injection H as <-. unfold rat_inv. cbn [rsign rnum rden].
    repeat split; lia.
  - unfold two63. lia.
Qed.

(** ** exactness without loss (mode Strict) *)
Lemma rat_cross_strict n d s c : rat_cross Strict n d s = Ok c -> c = s * (n * d).
Proof.
  unfold rat_cross, u64_mul, i64_mul. intros H. do 2 inv_bind H.
  apply ovf_u64_exact in Hb as [-> _]; [|discriminate].
  apply cast_i64_exact in Hb0 as [-> _].
  apply ovf_i64_exact in H as [-> _]; [|discriminate]. ring.
Qed.

Lemma rat_finish_strict s d1 d2 z : 0 < d1 -> 0 < d2 -> rat_finish Strict s d1 d2 = Ok z ->
  rat_valid z /\ (ratQ z == s # Z.to_pos (d1 * d2))%Q.
Proof.
  intros H1 H2 H.
  assert (rat_inv z) as HI.
  { unfold rat_finish, i64_abs in H. pose proof H as H'. inv_bind H'.
    apply ovf_i64_exact in Hb as [-> Hr]; [|discriminate].
    apply rat_finish_inv in H; [assumption|]. lia. }
  unfold rat_finish, i64_abs, u64_mul, i64_signum in H. do 3 inv_bind H. injection H as <-.
  apply ovf_i64_exact in Hb as [-> _]; [|discriminate].
  apply cast_u64_exact in Hb0 as [-> _].
  apply ovf_u64_exact in Hb1 as [-> Hd]; [|discriminate].
  split.
  - apply rat_inv_valid; [assumption|].
    destruct (reduce_bounds (mkRat (Z.sgn s) (Z.abs s) (d1 * d2))) as (_ & _ & X & _);
      cbn [rnum rden] in *; nia.
  - rewrite reduce_Q by (cbn [rnum rden]; nia). unfold ratQ, Qeq. cbn [Qnum Qden rsign rnum rden].
    assert (Z.sgn s * Z.abs s = s) as -> by (rewrite Z.mul_comm; apply Z.abs_sgn). reflexivity.
Qed.

Lemma rat_add_strict x y z : rat_valid x -> rat_valid y -> rat_add Strict x y = Ok z ->
  rat_valid z /\ (ratQ z == ratQ x + ratQ y)%Q.
Proof.
  intros (_ & _ & Hd1) (_ & _ & Hd2) H. unfold rat_add, i64_add in H. do 3 inv_bind H.
  apply rat_cross_strict in Hb, Hb0. subst.
  apply ovf_i64_exact in Hb1 as [-> _]; [|discriminate].
  apply rat_finish_strict in H as [HV HQ]; try lia. split; [assumption|].
  rewrite HQ. unfold ratQ. rewrite Qplus_frac by lia. unfold Qeq. cbn [Qnum Qden]. ring.
Qed.
Lemma rat_sub_strict x y z : rat_valid x -> rat_valid y -> rat_sub Strict x y = Ok z ->
  rat_valid z /\ (ratQ z == ratQ x - ratQ y)%Q.
Proof.
  intros (_ & _ & Hd1) (_ & _ & Hd2) H. unfold rat_sub, i64_sub in H. do 3 inv_bind H.
  apply rat_cross_strict in Hb, Hb0. subst.
  apply ovf_i64_exact in Hb1 as [-> _]; [|discriminate].
  apply rat_finish_strict in H as [HV HQ]; try lia. split; [assumption|].
  rewrite HQ. unfold ratQ, Qminus, Qopp. cbn [Qnum Qden].
  rewrite Qplus_frac by lia. unfold Qeq. cbn [Qnum Qden]. ring.
Qed.

(** ** debug sums with cross products below 2^63 are exact *)
Lemma rat_finish_debug s d1 d2 z : 0 < d1 -> 0 < d2 -> rat_finish Debug s d1 d2 = Ok z ->
  Z.abs s < two63 /\ d1 * d2 < two64.
Proof.
  intros H1 H2 H. unfold rat_finish, i64_abs, u64_mul in H. do 3 inv_bind H.
  apply ovf_i64_exact in Hb as [-> ?]; [|discriminate].
  apply ovf_u64_exact in Hb1 as [-> ?]; [|discriminate]. lia.
Qed.

Lemma rat_add_debug_below x y z : rat_valid x -> rat_valid y ->
  rnum x * rden y < two63 -> rnum y * rden x < two63 ->
  rat_add Debug x y = Ok z -> (ratQ z == ratQ x + ratQ y)%Q.
Proof.
  intros Hx Hy H1 H2 H. pose proof H as H'. unfold rat_add in H'.
  destruct Hx as (Hs1 & Hn1 & Hd1) eqn:EX, Hy as (Hs2 & Hn2 & Hd2) eqn:EY. clear EX EY.
  rewrite cross_spec in H' by lia. cbn [bind] in H'.
  rewrite cross_spec in H' by lia. cbn [bind] in H'.
  inv_bind H'. unfold i64_add in Hb. apply ovf_i64_exact in Hb as [-> Hr]; [|discriminate].
  apply rat_finish_debug in H' as [A B]; try lia.
  destruct (rat_add_spec Debug x y Hx Hy) as (z' & E & _ & _ & _ & Q & _).
  - unfold sum_in_range. rewrite (Z.mul_comm (rnum y)). repeat split; lia.
  - rewrite E in H. injection H as <-. exact Q.
Qed.
Lemma rat_sub_debug_below x y z : rat_valid x -> rat_valid y ->
  rnum x * rden y < two63 -> rnum y * rden x < two63 ->
  rat_sub Debug x y = Ok z -> (ratQ z == ratQ x - ratQ y)%Q.
Proof.
  intros Hx Hy H1 H2 H. pose proof H as H'. unfold rat_sub in H'.
  destruct Hx as (Hs1 & Hn1 & Hd1) eqn:EX, Hy as (Hs2 & Hn2 & Hd2) eqn:EY. clear EX EY.
  rewrite cross_spec in H' by lia. cbn [bind] in H'.
  rewrite cross_spec in H' by lia. cbn [bind] in H'.
  inv_bind H'. unfold i64_sub in Hb. apply ovf_i64_exact in Hb as [-> Hr]; [|discriminate].
  apply rat_finish_debug in H' as [A B]; try lia.
  destruct (rat_sub_spec Debug x y Hx Hy) as (z' & E & _ & _ & _ & Q & _).
  - unfold sum_in_range. rewrite (Z.mul_comm (rnum y)). repeat split; lia.
  - rewrite E in H. injection H as <-. exact Q.
Qed.
