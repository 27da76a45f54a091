(** * PropsNum2: more about numbers (C02, C05, C06, C11) *)
From Coq Require Import ZArith QArith List String Bool Lia.
From Verif Require Import Base Float Rational SmartNum Ast Spec SpecF BaseProofs RationalProofs NumProofs NumProofs2 TreeProofs2.
Import ListNotations.
Open Scope Z_scope.

(** ** C02 == on fractions satisfies the contract of Rust's Eq on every value of the type,
    zero denominators and arbitrary signs included *)
Theorem c02_eq_contract :
  (forall x, rat_eqb x x = true) /\
  (forall x y, rat_eqb x y = rat_eqb y x) /\
  (forall x y z, rat_eqb x y = true -> rat_eqb y z = true -> rat_eqb x z = true).
Proof.
  unfold rat_eqb. split; [|split].
  - intros x. rewrite !Z.eqb_refl. reflexivity.
  - intros x y. rewrite (Z.eqb_sym (rsign (rat_reduce x))), (Z.eqb_sym (rnum (rat_reduce x)) (rnum (rat_reduce y))),
      (Z.eqb_sym (rden (rat_reduce x))). f_equal. apply andb_comm.
  - intros x y z H1 H2. apply orb_true_iff in H1. apply orb_true_iff in H2. apply orb_true_iff.
    rewrite !andb_true_iff, !Z.eqb_eq in *. destruct H1 as [((A & B) & C)|(A & B)], H2 as [((A' & B') & C')|(A' & B')];
      [left|right|right|right]; repeat split; congruence.
Qed.
Print Assumptions c02_eq_contract.

(** ** C06 exactly when and by how much a debug sum or difference is wrong *)
(** the `as i64` cast of a cross product p < 2^64 silently loses 2^64 when p >= 2^63 *)
Definition lost (p : Z) : Z := if two63 <=? p then 1 else 0.

Lemma lost_cast p : 0 <= p < two64 -> cast_i64 Debug p = Ok (p - two64 * lost p).
Proof.
  intros H. unfold cast_i64, lost, wrap_i64. destruct (in_i64 p) eqn:E.
  - apply in_i64_iff in E. destruct (Z.leb_spec two63 p); [lia|]. f_equal. lia.
  - destruct (Z.leb_spec two63 p).
    + f_equal. rewrite <- (Z.mod_unique (p + two63) two64 1 (p + two63 - two64)); unfold two63, two64 in *; lia.
    + assert (in_i64 p = true) by (apply in_i64_iff; unfold two63 in *; lia). congruence.
Qed.

Lemma cross_debug n d s : 0 <= n -> 0 <= d -> (s = 1 \/ s = -1 \/ s = 0) ->
  (rat_cross Debug n d s = Panic /\ (two64 <= n * d \/ (n * d = two63 /\ s = -1))) \/
  (rat_cross Debug n d s = Ok (s * (n * d - two64 * lost (n * d))) /\ n * d < two64 /\ ~ (n * d = two63 /\ s = -1)).
Proof.
  intros Hn Hd Hs. unfold rat_cross, u64_mul.
  destruct (Z_lt_dec (n * d) two64) as [L|L].
  2:{ left. unfold ovf_u64. destruct (in_u64 (n * d)) eqn:E; [apply in_u64_iff in E; lia|]. split; [reflexivity|lia]. }
  rewrite ovf_u64_in by nia. cbn [bind]. rewrite lost_cast by nia. cbn [bind]. unfold i64_mul, ovf_i64.
  assert (0 <= n * d) as P by nia. set (p := n * d) in *. rewrite (Z.mul_comm _ s).
  destruct (in_i64 (s * (p - two64 * lost p))) eqn:E.
  - right. split; [reflexivity|]. split; [assumption|]. intros [-> ->]. vm_compute in E. discriminate.
  - left. split; [reflexivity|]. right. revert E. unfold in_i64, lost.
    destruct (Z.leb_spec two63 p); intros E; apply andb_false_iff in E; rewrite Z.leb_gt, Z.ltb_ge in E;
      unfold two63, two64 in *; destruct Hs as [-> | [-> | ->]]; lia.
Qed.

Lemma finish_debug s d1 d2 : 0 < d1 -> 0 < d2 ->
  (rat_finish Debug s d1 d2 = Panic /\ (two63 <= Z.abs s \/ two64 <= d1 * d2)) \/
  (exists z, rat_finish Debug s d1 d2 = Ok z /\ Z.abs s < two63 /\ d1 * d2 < two64 /\
     rat_valid z /\ lowest_terms z /\ (ratQ z == s # Z.to_pos (d1 * d2))%Q).
Proof.
  intros H1 H2. destruct (Z_lt_dec (Z.abs s) two63) as [L|L].
  2:{ left. unfold rat_finish, i64_abs, ovf_i64. destruct (in_i64 (Z.abs s)) eqn:E; [apply in_i64_iff in E; lia|].
      split; [reflexivity|lia]. }
  destruct (Z_lt_dec (d1 * d2) two64) as [M|M].
  2:{ left. unfold rat_finish, i64_abs. rewrite ovf_i64_in by lia. cbn [bind].
      rewrite cast_u64_in by (unfold two63, two64 in *; lia). cbn [bind]. unfold u64_mul, ovf_u64.
      destruct (in_u64 (d1 * d2)) eqn:E; [apply in_u64_iff in E; lia|]. split; [reflexivity|lia]. }
  right. destruct (finish_spec Debug s d1 d2 L H1 H2 M) as (z & E & A & B & C & D & F).
  exists z. repeat (split; [assumption|]). split; [|split; assumption]. unfold rat_valid. rewrite B.
  split; [|split; assumption].
  destruct (Z.sgn_spec s) as [(S & ->)|[(S & ->)|(S & ->)]]; auto. right. right. split; [reflexivity|].
  subst s. assert (ratQ z == 0)%Q as Q0 by (rewrite F; reflexivity).
  unfold Qeq, ratQ in Q0. cbn in Q0. rewrite B in Q0. revert E. unfold rat_finish. cbn [i64_abs].
  unfold i64_abs, i64_signum. rewrite ovf_i64_in by (unfold two63; cbn; lia). cbn [bind]. 
  rewrite cast_u64_in by (unfold two64; cbn; lia). cbn [bind]. unfold u64_mul. rewrite ovf_u64_in by nia. cbn [bind].
  intros [= <-]. unfold rat_reduce. cbn [rnum Z.abs]. unfold u64_div. apply Z.div_0_l.
  unfold reduce_divisor. cbn [rnum rden]. destruct (gcd 0 (d1 * d2) =? 0) eqn:G; [discriminate|].
  apply Z.eqb_neq. exact G.
Qed.

(** the sum the debug build works out: each cross product minus what its cast lost *)
Definition debug_sum (op : Z -> Z -> Z) (x y : rat) : Z :=
  let p := rnum x * rden y in let q := rnum y * rden x in
  op (rsign x * (p - two64 * lost p)) (rsign y * (q - two64 * lost q)).

(** the conditions under which x + y (op = Z.add) or x - y (op = Z.sub) panics in a debug build *)
Definition debug_panics (op : Z -> Z -> Z) (x y : rat) : Prop :=
  let p := rnum x * rden y in let q := rnum y * rden x in
  two64 <= p \/ two64 <= q \/ (p = two63 /\ rsign x = -1) \/ (q = two63 /\ rsign y = -1) \/
  two63 <= Z.abs (debug_sum op x y) \/ two64 <= rden x * rden y.

Lemma frac_shift a b c d k : 0 < c -> 0 < d ->
  ((a * d + b * c - k) # Z.to_pos (c * d) == (a # Z.to_pos c) + (b # Z.to_pos d) - inject_Z k / inject_Z (c * d))%Q.
Proof.
  intros Hc Hd. rewrite Qplus_frac by assumption. set (u := c * d). assert (0 < u) as U by (unfold u; nia).
  assert (inject_Z k / inject_Z u == k # Z.to_pos u)%Q as ->.
  { unfold Qeq, Qdiv, Qinv, Qmult, inject_Z. cbn [Qnum Qden]. destruct u; try lia. cbn. rewrite ?Pos.mul_1_l. lia. }
  unfold Qeq, Qminus, Qplus, Qopp. cbn [Qnum Qden]. rewrite Pos2Z.inj_mul. ring.
Qed.

Theorem c06_debug_add x y : rat_valid x -> rat_valid y ->
  let p := rnum x * rden y in let q := rnum y * rden x in
  (rat_add Debug x y = Panic /\ debug_panics Z.add x y) \/
  (exists z, rat_add Debug x y = Ok z /\ ~ debug_panics Z.add x y /\ rat_valid z /\ lowest_terms z /\
    (ratQ z == ratQ x + ratQ y - inject_Z (two64 * (rsign x * lost p + rsign y * lost q)) / inject_Z (rden x * rden y))%Q).
Proof.
  intros (Hs1 & Hn1 & Hd1) (Hs2 & Hn2 & Hd2). cbv zeta. unfold rat_add.
  assert (rsign x = 1 \/ rsign x = -1 \/ rsign x = 0) as S1 by tauto.
  assert (rsign y = 1 \/ rsign y = -1 \/ rsign y = 0) as S2 by tauto.
  destruct (cross_debug (rnum x) (rden y) (rsign x) ltac:(lia) ltac:(lia) S1) as [(-> & C)|(-> & C1 & C2)]; cbn [bind].
  { left. split; [reflexivity|]. unfold debug_panics. tauto. }
  replace (rat_cross Debug (rden x) (rnum y) (rsign y)) with (rat_cross Debug (rnum y) (rden x) (rsign y))
    by (unfold rat_cross, u64_mul; rewrite (Z.mul_comm (rnum y)); reflexivity).
  destruct (cross_debug (rnum y) (rden x) (rsign y) ltac:(lia) ltac:(lia) S2) as [(-> & C)|(-> & C3 & C4)]; cbn [bind].
  { left. split; [reflexivity|]. unfold debug_panics. tauto. }
  unfold i64_add, ovf_i64. set (s := rsign x * (rnum x * rden y - two64 * lost (rnum x * rden y)) +
                       rsign y * (rnum y * rden x - two64 * lost (rnum y * rden x))).
  assert (debug_sum Z.add x y = s) as DS by reflexivity.
  destruct (in_i64 s) eqn:E.
  2:{ left. split; [reflexivity|]. unfold debug_panics. rewrite DS.
      assert (two63 <= Z.abs s); [|tauto]. assert (~ (- two63 <= s < two63)) by (rewrite <- in_i64_iff; congruence). lia. }
  cbn [bind]. destruct (finish_debug s (rden x) (rden y)) as [(-> & F)|(z & -> & F1 & F2 & V & W & F3)]; try lia.
  { left. split; [reflexivity|]. unfold debug_panics. rewrite DS. tauto. }
  right. exists z. split; [reflexivity|]. split.
  { unfold debug_panics. rewrite DS. lia. }
  split; [assumption|]. split; [assumption|]. rewrite F3. unfold ratQ. rewrite <- frac_shift by lia.
  unfold Qeq. cbn [Qnum Qden]. f_equal. unfold s. ring.
Qed.
Print Assumptions c06_debug_add.
Theorem c06_debug_sub x y : rat_valid x -> rat_valid y ->
  let p := rnum x * rden y in let q := rnum y * rden x in
  (rat_sub Debug x y = Panic /\ debug_panics Z.sub x y) \/
  (exists z, rat_sub Debug x y = Ok z /\ ~ debug_panics Z.sub x y /\ rat_valid z /\ lowest_terms z /\
    (ratQ z == ratQ x - ratQ y - inject_Z (two64 * (rsign x * lost p - rsign y * lost q)) / inject_Z (rden x * rden y))%Q).
Proof.
  intros (Hs1 & Hn1 & Hd1) (Hs2 & Hn2 & Hd2). cbv zeta. unfold rat_sub.
  assert (rsign x = 1 \/ rsign x = -1 \/ rsign x = 0) as S1 by tauto.
  assert (rsign y = 1 \/ rsign y = -1 \/ rsign y = 0) as S2 by tauto.
  destruct (cross_debug (rnum x) (rden y) (rsign x) ltac:(lia) ltac:(lia) S1) as [(-> & C)|(-> & C1 & C2)]; cbn [bind].
  { left. split; [reflexivity|]. unfold debug_panics. tauto. }
  replace (rat_cross Debug (rden x) (rnum y) (rsign y)) with (rat_cross Debug (rnum y) (rden x) (rsign y))
    by (unfold rat_cross, u64_mul; rewrite (Z.mul_comm (rnum y)); reflexivity).
  destruct (cross_debug (rnum y) (rden x) (rsign y) ltac:(lia) ltac:(lia) S2) as [(-> & C)|(-> & C3 & C4)]; cbn [bind].
  { left. split; [reflexivity|]. unfold debug_panics. tauto. }
  unfold i64_sub, ovf_i64. set (s := rsign x * (rnum x * rden y - two64 * lost (rnum x * rden y)) -
                       rsign y * (rnum y * rden x - two64 * lost (rnum y * rden x))).
  assert (debug_sum Z.sub x y = s) as DS by reflexivity.
  destruct (in_i64 s) eqn:E.
  2:{ left. split; [reflexivity|]. unfold debug_panics. rewrite DS.
      assert (two63 <= Z.abs s); [|tauto]. assert (~ (- two63 <= s < two63)) by (rewrite <- in_i64_iff; congruence). lia. }
  cbn [bind]. destruct (finish_debug s (rden x) (rden y)) as [(-> & F)|(z & -> & F1 & F2 & V & W & F3)]; try lia.
  { left. split; [reflexivity|]. unfold debug_panics. rewrite DS. tauto. }
  right. exists z. split; [reflexivity|]. split.
  { unfold debug_panics. rewrite DS. lia. }
  split; [assumption|]. split; [assumption|]. rewrite F3. 
  assert (ratQ x - ratQ y = (rsign x * rnum x # Z.to_pos (rden x)) + (- (rsign y * rnum y) # Z.to_pos (rden y)))%Q
    as -> by reflexivity.
  rewrite <- frac_shift by lia.
  unfold Qeq. cbn [Qnum Qden]. f_equal. unfold s. ring.
Qed.
Print Assumptions c06_debug_sub.

(** so a debug result is right exactly when the losses cancel *)
Theorem c06_right_iff x y z : rat_valid x -> rat_valid y ->
  let p := rnum x * rden y in let q := rnum y * rden x in
  (rat_add Debug x y = Ok z -> (ratQ z == ratQ x + ratQ y)%Q <-> rsign x * lost p + rsign y * lost q = 0) /\
  (rat_sub Debug x y = Ok z -> (ratQ z == ratQ x - ratQ y)%Q <-> rsign x * lost p - rsign y * lost q = 0).
Proof.
  intros Hx Hy. cbv zeta. 
  assert (0 < rden x * rden y) as P by (destruct Hx as (_ & _ & ?), Hy as (_ & _ & ?); nia).
  assert (forall u k, (u - inject_Z (two64 * k) / inject_Z (rden x * rden y) == u)%Q <-> k = 0) as K.
  { intros u k. split.
    - intros H. assert (inject_Z (two64 * k) / inject_Z (rden x * rden y) == 0)%Q as Z.
      { rewrite <- (Qplus_inj_l _ _ (u - inject_Z (two64 * k) / inject_Z (rden x * rden y))). rewrite Qplus_0_r.
        rewrite H at 2. unfold Qminus. rewrite <- Qplus_assoc. rewrite (Qplus_comm (- _)%Q), Qplus_opp_r. apply Qplus_0_r. }
      destruct (Z.eq_dec k 0) as [|N]; [assumption|exfalso].
      set (u' := inject_Z (rden x * rden y)) in *.
      assert (~ u' == 0)%Q as U by (unfold u', inject_Z, Qeq; cbn [Qnum Qden]; lia).
      assert (inject_Z (two64 * k) == 0)%Q as Y.
      { rewrite <- (Qmult_div_r (inject_Z (two64 * k)) u' U). rewrite Z. apply Qmult_0_r. }
      unfold Qeq, inject_Z in Y. cbn [Qnum Qden] in Y. unfold two64 in Y. lia.
    - intros ->. rewrite Z.mul_0_r. unfold Qdiv. rewrite Qmult_0_l. unfold Qminus. apply Qplus_0_r. }
  split; intros E.
  - destruct (c06_debug_add x y Hx Hy) as [(F & _)|(w & F & _ & _ & _ & Q)]; rewrite E in F; [discriminate|].
    injection F as <-. rewrite Q. apply K.
  - destruct (c06_debug_sub x y Hx Hy) as [(F & _)|(w & F & _ & _ & _ & Q)]; rewrite E in F; [discriminate|].
    injection F as <-. rewrite Q. apply K.
Qed.
Print Assumptions c06_right_iff.

(** ** C05 with cross products below 2^63, a debug sum or difference panics exactly when the result cannot be held *)
Theorem c05_panics_iff x y : rat_valid x -> rat_valid y ->
  rnum x * rden y < two63 -> rnum y * rden x < two63 ->
  (rat_add Debug x y = Panic <->
   two63 <= Z.abs (rsign x * (rnum x * rden y) + rsign y * (rnum y * rden x)) \/ two64 <= rden x * rden y) /\
  (rat_sub Debug x y = Panic <->
   two63 <= Z.abs (rsign x * (rnum x * rden y) - rsign y * (rnum y * rden x)) \/ two64 <= rden x * rden y).
Proof.
  intros Hx Hy P Q.
  assert (lost (rnum x * rden y) = 0) as L1 by (unfold lost; destruct (Z.leb_spec two63 (rnum x * rden y)); lia).
  assert (lost (rnum y * rden x) = 0) as L2 by (unfold lost; destruct (Z.leb_spec two63 (rnum y * rden x)); lia).
  assert (forall op, debug_panics op x y <->
    two63 <= Z.abs (op (rsign x * (rnum x * rden y)) (rsign y * (rnum y * rden x))) \/ two64 <= rden x * rden y) as D.
  { intros op. unfold debug_panics, debug_sum. rewrite L1, L2, Z.mul_0_r, !Z.sub_0_r. unfold two63, two64 in *. lia. }
  split.
  - destruct (c06_debug_add x y Hx Hy) as [(-> & F)|(w & -> & F & _)]; rewrite D in F.
    + split; [intros _; exact F|reflexivity].
    + split; [discriminate|]. intros H. destruct (F H).
  - destruct (c06_debug_sub x y Hx Hy) as [(-> & F)|(w & -> & F & _)]; rewrite D in F.
    + split; [intros _; exact F|reflexivity].
    + split; [discriminate|]. intros H. destruct (F H).
Qed.
Print Assumptions c05_panics_iff.

(** losses that cancel: 2^63/1 - (2^63+1)/1 is right although both casts lose 2^64 *)
Example c06_cancel_example : exists z, rat_sub Debug (mkRat 1 two63 1) (mkRat 1 (two63 + 1) 1) = Ok z /\ (ratQ z == - (1))%Q.
Proof. eexists. split; [vm_compute; reflexivity|reflexivity]. Qed.
Example c05_panics_example : rat_add Debug (mkRat 1 (two63 - 1) 1) (mkRat 1 1 1) = Panic.
Proof. vm_compute. reflexivity. Qed.

(** ** C11 number arithmetic never panics in release builds, nor with an f64 operand in any build *)
Theorem c11_release_never_panics x y :
  (exists z, sn_add Release x y = Ok z) /\ (exists z, sn_sub Release x y = Ok z) /\
  (exists z, sn_mul Release x y = Ok z) /\ (exists z, sn_div Release x y = Ok z) /\
  (exists z, sn_neg Release x = Ok z).
Proof.
  repeat split;
  [pose proof (sn_add_safe Release x y) as H|pose proof (sn_sub_safe Release x y) as H
  |pose proof (sn_mul_safe Release x y) as H|pose proof (sn_div_safe Release x y) as H|pose proof (sn_neg_safe Release x) as H];
  match type of H with safe _ ?r => destruct r end; cbn in H; try discriminate; try contradiction; eauto.
Qed.
Print Assumptions c11_release_never_panics.

Ltac f64_returns Hm a b :=
  unfold val_add, val_sub, val_mul, val_div, rat_to_f64, m_of_Z, m_add, m_sub, m_mul, m_div, trap_unless;
  destruct Hm as [-> | ->], a, b; try discriminate; cbn [is_strict andb bind]; eauto;
  try (match goal with |- context [if ?c then _ else _] => destruct c end; eauto).

Lemma val_f64_returns m a b : m = Debug \/ m = Release -> val_is_real a || val_is_real b = true ->
  (exists z, val_add m a b = Ok z) /\ (exists z, val_sub m a b = Ok z) /\
  (exists z, val_mul m a b = Ok z) /\ (exists z, val_div m a b = Ok z).
Proof. intros Hm H. repeat split; f64_returns Hm a b. Qed.

Theorem c11_f64_never_panics m x y : m = Debug \/ m = Release -> api_number m x -> api_number m y ->
  f64_backed x \/ f64_backed y ->
  (exists z, sn_add m x y = Ok z) /\ (exists z, sn_sub m x y = Ok z) /\
  (exists z, sn_mul m x y = Ok z) /\ (exists z, sn_div m x y = Ok z).
Proof.
  intros Hm Hx Hy H. apply api_number_ok in Hx. apply api_number_ok in Hy.
  assert (val_is_real (nval x) || val_is_real (nval y) = true) as R.
  { destruct H as [[f ->]|[f ->]]; [reflexivity|apply orb_true_r]. }
  destruct (val_f64_returns m _ _ Hm R) as ([a Ea] & [s Es] & [p Ep] & [d Ed]).
  assert (forall b r, guard m b r = r) as G by (intros; unfold guard; destruct Hm as [-> | ->]; reflexivity).
  unfold sn_add, sn_sub, sn_mul, sn_div. rewrite !G, Ea, Es, Ep, Ed. cbn [bind].
  repeat split; repeat (match goal with |- context [if ?c then _ else _] => destruct c eqn:?E end); eauto.
  assert (exists f, nval y = Real f) as [f Ef].
  { destruct H as [[f F]|K]; [|exact K]. exfalso. destruct Hx as [_ T]. unfold sn_is_zero in E.
    destruct (ntag x); try discriminate. rewrite F in T. discriminate. }
  unfold sn_neg. rewrite G, Ef. cbn. eauto.
Qed.
Print Assumptions c11_f64_never_panics.
