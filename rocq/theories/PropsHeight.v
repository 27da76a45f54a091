(** * PropsHeight: explicit bounds under which fraction arithmetic is exact (C83) *)
From Coq Require Import Lra.
From Coq Require Import ZArith QArith Qreals List String Bool Lia Reals.
From Verif Require Import Base Float Rational SmartNum Ast Compute Spec SpecTree SpecR SpecExact SpecHeight.
From Verif Require Import BaseProofs RationalProofs NumProofs NumProofs2 TreeProofs TreeProofs2 RealProofs PropsNum PropsTree PropsRing PropsLH.
Import ListNotations.
Open Scope Z_scope.

(** ** fractions *)
Definition rbd (r : rat) (h : Z) : Prop :=
  (rsign r = 1 \/ rsign r = -1 \/ (rsign r = 0 /\ rnum r = 0)) /\ 0 <= rnum r <= h /\ 0 < rden r <= h.

Lemma reduce_bd s n d h : (s = 1 \/ s = -1 \/ (s = 0 /\ n = 0)) -> 0 <= n <= h -> 0 < d <= h -> rbd (rat_reduce (mkRat s n d)) h.
Proof.
  intros S N D. destruct (reduce_bounds (mkRat s n d)) as (B1 & B2 & B3 & B4 & _); cbn [rnum rden] in *; try lia.
  split; [cbn [rsign]; destruct S as [-> | [-> | (-> & ->)]]; [left|right; left|right; right]; try reflexivity|].
  - split; [reflexivity|]. apply B4. reflexivity.
  - specialize (B3 ltac:(lia)). lia.
Qed.

Lemma prod_bd a b c d : 0 <= a <= b -> 0 <= c <= d -> 0 <= a * c <= b * d.
Proof. intros. nia. Qed.

Lemma sgn_ok z : Z.sgn z = 1 \/ Z.sgn z = -1 \/ (Z.sgn z = 0 /\ Z.abs z = 0).
Proof. destruct z; cbn; auto. Qed.

Lemma cross_bd r1 r2 h1 h2 : rbd r1 h1 -> rbd r2 h2 -> h1 * h2 < two63 ->
  exists a, rat_cross Strict (rnum r1) (rden r2) (rsign r1) = Ok a /\ Z.abs a <= h1 * h2.
Proof.
  intros (S1 & N1 & D1) (S2 & N2 & D2) H. pose proof (prod_bd (rnum r1) h1 (rden r2) h2 ltac:(lia) ltac:(lia)) as P.
  unfold rat_cross, u64_mul, i64_mul. rewrite ovf_u64_in by (unfold two64, two63 in *; lia). cbn [bind].
  rewrite cast_i64_in by lia. cbn [bind]. exists (rnum r1 * rden r2 * rsign r1).
  assert (Z.abs (rnum r1 * rden r2 * rsign r1) <= h1 * h2) as A by (destruct S1 as [-> | [-> | (-> & _)]]; lia).
  split; [|exact A]. apply ovf_i64_in. lia.
Qed.
Lemma cross_bd' r1 r2 h1 h2 : rbd r1 h1 -> rbd r2 h2 -> h1 * h2 < two63 ->
  exists a, rat_cross Strict (rden r1) (rnum r2) (rsign r2) = Ok a /\ Z.abs a <= h1 * h2.
Proof.
  intros (S1 & N1 & D1) (S2 & N2 & D2) H. pose proof (prod_bd (rden r1) h1 (rnum r2) h2 ltac:(lia) ltac:(lia)) as P.
  unfold rat_cross, u64_mul, i64_mul. rewrite ovf_u64_in by (unfold two64, two63 in *; lia). cbn [bind].
  rewrite cast_i64_in by lia. cbn [bind]. exists (rden r1 * rnum r2 * rsign r2).
  assert (Z.abs (rden r1 * rnum r2 * rsign r2) <= h1 * h2) as A by (destruct S2 as [-> | [-> | (-> & _)]]; lia).
  split; [|exact A]. apply ovf_i64_in. lia.
Qed.

Lemma finish_bd s r1 r2 h1 h2 : rbd r1 h1 -> rbd r2 h2 -> Z.abs s <= 2 * (h1 * h2) -> 2 * (h1 * h2) < two63 ->
  exists z, rat_finish Strict s (rden r1) (rden r2) = Ok z /\ rbd z (2 * (h1 * h2)).
Proof.
  intros (S1 & N1 & D1) (S2 & N2 & D2) A H. pose proof (prod_bd (rden r1) h1 (rden r2) h2 ltac:(lia) ltac:(lia)) as P.
  unfold rat_finish, i64_abs, u64_mul, i64_signum. rewrite ovf_i64_in by lia. cbn [bind].
  rewrite cast_u64_in by (unfold two64, two63 in *; lia). cbn [bind]. rewrite ovf_u64_in by (unfold two64, two63 in *; lia). cbn [bind].
  eexists. split; [reflexivity|]. apply reduce_bd; [apply sgn_ok|lia|nia].
Qed.

Lemma rat_add_bd r1 r2 h1 h2 : rbd r1 h1 -> rbd r2 h2 -> 2 * (h1 * h2) < two63 ->
  exists z, rat_add Strict r1 r2 = Ok z /\ rbd z (2 * (h1 * h2)).
Proof.
  intros B1 B2 H. assert (1 <= h1 * h2) as G by (destruct B1 as (_ & _ & ?), B2 as (_ & _ & ?); nia).
  destruct (cross_bd r1 r2 h1 h2 B1 B2 ltac:(lia)) as (a & Ea & Ha). destruct (cross_bd' r1 r2 h1 h2 B1 B2 ltac:(lia)) as (b & Eb & Hb).
  unfold rat_add. rewrite Ea, Eb. cbn [bind]. unfold i64_add. rewrite ovf_i64_in by lia. cbn [bind].
  exact (finish_bd (a + b) r1 r2 h1 h2 B1 B2 ltac:(lia) H).
Qed.
Lemma rat_sub_bd r1 r2 h1 h2 : rbd r1 h1 -> rbd r2 h2 -> 2 * (h1 * h2) < two63 ->
  exists z, rat_sub Strict r1 r2 = Ok z /\ rbd z (2 * (h1 * h2)).
Proof.
  intros B1 B2 H. assert (1 <= h1 * h2) as G by (destruct B1 as (_ & _ & ?), B2 as (_ & _ & ?); nia).
  destruct (cross_bd r1 r2 h1 h2 B1 B2 ltac:(lia)) as (a & Ea & Ha). destruct (cross_bd' r1 r2 h1 h2 B1 B2 ltac:(lia)) as (b & Eb & Hb).
  unfold rat_sub. rewrite Ea, Eb. cbn [bind]. unfold i64_sub. rewrite ovf_i64_in by lia. cbn [bind].
  exact (finish_bd (a - b) r1 r2 h1 h2 B1 B2 ltac:(lia) H).
Qed.

Lemma sign_prod s1 n1 s2 n2 : (s1 = 1 \/ s1 = -1 \/ (s1 = 0 /\ n1 = 0)) -> (s2 = 1 \/ s2 = -1 \/ (s2 = 0 /\ n2 = 0)) ->
  (s1 * s2 = 1 \/ s1 * s2 = -1 \/ (s1 * s2 = 0 /\ n1 * n2 = 0)).
Proof. intros [-> | [-> | (-> & ->)]] [-> | [-> | (-> & ->)]]; lia. Qed.

Lemma rat_mul_bd r1 r2 h1 h2 : rbd r1 h1 -> rbd r2 h2 -> h1 * h2 < two63 ->
  exists z, rat_mul Strict r1 r2 = Ok z /\ rbd z (h1 * h2).
Proof.
  intros (S1 & N1 & D1) (S2 & N2 & D2) H. pose proof (prod_bd (rnum r1) h1 (rnum r2) h2 ltac:(lia) ltac:(lia)) as P.
  pose proof (prod_bd (rden r1) h1 (rden r2) h2 ltac:(lia) ltac:(lia)) as P'. pose proof (sign_prod _ _ _ _ S1 S2) as S.
  unfold rat_mul, i64_mul, u64_mul. rewrite ovf_i64_in by (unfold two63 in *; lia). cbn [bind].
  rewrite !ovf_u64_in by (unfold two64, two63 in *; lia). cbn [bind]. eexists. split; [reflexivity|]. apply reduce_bd; [exact S|lia|nia].
Qed.
Lemma rat_div_bd r1 r2 h1 h2 : rbd r1 h1 -> rbd r2 h2 -> rnum r2 <> 0 -> h1 * h2 < two63 ->
  exists z, rat_div Strict r1 r2 = Ok z /\ rbd z (h1 * h2).
Proof.
  intros (S1 & N1 & D1) (S2 & N2 & D2) NZ H. pose proof (prod_bd (rnum r1) h1 (rden r2) h2 ltac:(lia) ltac:(lia)) as P.
  pose proof (prod_bd (rden r1) h1 (rnum r2) h2 ltac:(lia) ltac:(lia)) as P'.
  unfold rat_div, i64_mul, u64_mul. rewrite ovf_i64_in by (destruct S1 as [-> | [-> | (-> & _)]], S2 as [-> | [-> | (-> & _)]]; unfold two63 in *; lia). cbn [bind].
  rewrite !ovf_u64_in by (unfold two64, two63 in *; lia). cbn [bind]. eexists. split; [reflexivity|].
  apply reduce_bd; [|lia|nia].
  destruct S1 as [-> | [-> | (-> & E)]], S2 as [-> | [-> | (-> & E2)]]; try contradiction; try lia.
Qed.
Lemma rat_of_bd i h : Z.abs i <= h -> 1 <= h -> h < two63 -> exists r, rat_of_i64 Strict i = Ok r /\ rbd r h /\ (i <> 0 -> rnum r <> 0).
Proof.
  intros A B C. unfold rat_of_i64, i64_abs, i64_signum. rewrite ovf_i64_in by lia. cbn [bind].
  rewrite cast_u64_in by (unfold two64, two63 in *; lia). cbn [bind]. eexists. split; [reflexivity|]. unfold rbd. cbn [rsign rnum rden].
  split; [|lia]. split; [|lia]. destruct (Z.eqb_spec i 0); [auto|]. pose proof (sgn_ok i). lia.
Qed.

(** ** stored values *)
Definition vbd (v : val) (h : Z) : Prop :=
  1 <= h /\ match v with Integer i => Z.abs i <= h | Rational r => rbd r h | Real _ => False end.

Ltac vals a b Ha Hb := destruct Ha as (Ga & Ha), Hb as (Gb & Hb); destruct a as [i|i|i]; [| |contradiction]; (destruct b as [j|j|j]; [| |contradiction]).
Lemma val_add_bd a b h1 h2 : vbd a h1 -> vbd b h2 -> 2 * (h1 * h2) < two63 -> exists z, val_add Strict a b = Ok z /\ vbd z (2 * (h1 * h2)).
Proof.
  intros Ha Hb H. vals a b Ha Hb; assert (1 <= h1 * h2 /\ h1 <= h1 * h2 /\ h2 <= h1 * h2) as (G1 & G2 & G3) by nia; cbn [val_add].
  - unfold i64_add. rewrite ovf_i64_in by lia. eexists. split; [reflexivity|]. split; lia.
  - destruct (rat_of_bd i h1 Ha Ga ltac:(lia)) as (r & -> & B & _). cbn [bind].
    destruct (rat_add_bd r j h1 h2 B Hb H) as (z & -> & Z). eexists. split; [reflexivity|]. split; [lia|exact Z].
  - destruct (rat_of_bd j h2 Hb Gb ltac:(lia)) as (r & -> & B & _). cbn [bind].
    destruct (rat_add_bd i r h1 h2 Ha B H) as (z & -> & Z). eexists. split; [reflexivity|]. split; [lia|exact Z].
  - destruct (rat_add_bd i j h1 h2 Ha Hb H) as (z & -> & Z). eexists. split; [reflexivity|]. split; [lia|exact Z].
Qed.
Lemma val_sub_bd a b h1 h2 : vbd a h1 -> vbd b h2 -> 2 * (h1 * h2) < two63 -> exists z, val_sub Strict a b = Ok z /\ vbd z (2 * (h1 * h2)).
Proof.
  intros Ha Hb H. vals a b Ha Hb; assert (1 <= h1 * h2 /\ h1 <= h1 * h2 /\ h2 <= h1 * h2) as (G1 & G2 & G3) by nia; cbn [val_sub].
  - unfold i64_sub. rewrite ovf_i64_in by lia. eexists. split; [reflexivity|]. split; lia.
  - destruct (rat_of_bd i h1 Ha Ga ltac:(lia)) as (r & -> & B & _). cbn [bind].
    destruct (rat_sub_bd r j h1 h2 B Hb H) as (z & -> & Z). eexists. split; [reflexivity|]. split; [lia|exact Z].
  - destruct (rat_of_bd j h2 Hb Gb ltac:(lia)) as (r & -> & B & _). cbn [bind].
    destruct (rat_sub_bd i r h1 h2 Ha B H) as (z & -> & Z). eexists. split; [reflexivity|]. split; [lia|exact Z].
  - destruct (rat_sub_bd i j h1 h2 Ha Hb H) as (z & -> & Z). eexists. split; [reflexivity|]. split; [lia|exact Z].
Qed.
Lemma val_mul_bd a b h1 h2 : vbd a h1 -> vbd b h2 -> h1 * h2 < two63 -> exists z, val_mul Strict a b = Ok z /\ vbd z (h1 * h2).
Proof.
  intros Ha Hb H. unfold val_mul. assert (1 <= h1 * h2) as G by (destruct Ha as (? & _), Hb as (? & _); nia).
  destruct (val_is_zero a || val_is_zero b); [eexists; split; [reflexivity|split; cbn; lia]|].
  vals a b Ha Hb; assert (h1 <= h1 * h2 /\ h2 <= h1 * h2) as (G2 & G3) by nia.
  - pose proof (prod_bd (Z.abs i) h1 (Z.abs j) h2 ltac:(lia) ltac:(lia)) as P. rewrite <- Z.abs_mul in P.
    unfold i64_mul. rewrite ovf_i64_in by lia. eexists. split; [reflexivity|]. split; lia.
  - destruct (rat_of_bd i h1 Ha Ga ltac:(lia)) as (r & -> & B & _). cbn [bind].
    destruct (rat_mul_bd r j h1 h2 B Hb H) as (z & -> & Z). eexists. split; [reflexivity|]. split; [lia|exact Z].
  - destruct (rat_of_bd j h2 Hb Gb ltac:(lia)) as (r & -> & B & _). cbn [bind].
    destruct (rat_mul_bd i r h1 h2 Ha B H) as (z & -> & Z). eexists. split; [reflexivity|]. split; [lia|exact Z].
  - destruct (rat_mul_bd i j h1 h2 Ha Hb H) as (z & -> & Z). eexists. split; [reflexivity|]. split; [lia|exact Z].
Qed.
Lemma val_div_bd a b h1 h2 : vbd a h1 -> vbd b h2 -> val_is_zero b = false -> h1 * h2 < two63 ->
  exists z, val_div Strict a b = Ok z /\ vbd z (h1 * h2).
Proof.
  intros Ha Hb NZ H. unfold val_div. assert (1 <= h1 * h2) as G by (destruct Ha as (? & _), Hb as (? & _); nia).
  destruct (val_is_zero a); [eexists; split; [reflexivity|split; cbn; lia]|].
  vals a b Ha Hb; assert (h1 <= h1 * h2 /\ h2 <= h1 * h2) as (G2 & G3) by nia.
  - destruct (rat_of_bd i h1 Ha Ga ltac:(lia)) as (r & -> & B & _). cbn [bind].
    destruct (rat_of_bd j h2 Hb Gb ltac:(lia)) as (s & -> & B' & N). cbn [bind]. cbn [val_is_zero] in NZ. apply Z.eqb_neq in NZ.
    destruct (rat_div_bd r s h1 h2 B B' (N NZ) H) as (z & -> & Z). eexists. split; [reflexivity|]. split; [lia|exact Z].
  - destruct (rat_of_bd i h1 Ha Ga ltac:(lia)) as (r & -> & B & _). cbn [bind].
    assert (rnum j <> 0) as N. { intros E. destruct Hb as (_ & _ & D). cbn [val_is_zero] in NZ. rewrite E in NZ. cbn in NZ. apply negb_false_iff, Z.eqb_eq in NZ. lia. }
    destruct (rat_div_bd r j h1 h2 B Hb N H) as (z & -> & Z). eexists. split; [reflexivity|]. split; [lia|exact Z].
  - destruct (rat_of_bd j h2 Hb Gb ltac:(lia)) as (s & -> & B' & N). cbn [bind]. cbn [val_is_zero] in NZ. apply Z.eqb_neq in NZ.
    destruct (rat_div_bd i s h1 h2 Ha B' (N NZ) H) as (z & -> & Z). eexists. split; [reflexivity|]. split; [lia|exact Z].
  - assert (rnum j <> 0) as N. { intros E. destruct Hb as (_ & _ & D). cbn [val_is_zero] in NZ. rewrite E in NZ. cbn in NZ. apply negb_false_iff, Z.eqb_eq in NZ. lia. }
    destruct (rat_div_bd i j h1 h2 Ha Hb N H) as (z & -> & Z). eexists. split; [reflexivity|]. split; [lia|exact Z].
Qed.
Lemma val_neg_bd a h : vbd a h -> h < two63 -> exists z, val_neg Strict a = Ok z /\ vbd z h.
Proof.
  intros (G & Ha) H. destruct a as [i|r|f]; [| |contradiction]; cbn [val_neg].
  - unfold i64_neg. rewrite ovf_i64_in by lia. eexists. split; [reflexivity|]. split; lia.
  - destruct Ha as (S & N & D). unfold rat_neg, i64_neg. rewrite ovf_i64_in by (unfold two63 in *; lia). cbn [bind].
    eexists. split; [reflexivity|]. split; [lia|]. split; cbn [rsign rnum rden]; [|lia]. lia.
Qed.

(** ** numbers *)
Definition nbd (x : snum) (h : Z) : Prop := num_ok x /\ vbd (nval x) h.
Lemma nbd_le x h h' : nbd x h -> h <= h' -> nbd x h'.
Proof.
  intros (O & G & B) L. split; [exact O|]. split; [lia|]. destruct (nval x) as [i|r|f]; [lia| |contradiction].
  destruct B as (S & N & D). split; [exact S|]. lia.
Qed.
Lemma wrap_bd v h : vbd v h -> vbd (nval (wrap_val v)) h.
Proof.
  intros (G & B). unfold wrap_val. destruct (val_is_zero v); [split; cbn; lia|]. destruct (val_is_one v); [split; cbn; lia|]. split; [exact G|exact B].
Qed.
Lemma nbd_approx x h : nbd x h -> approx x = false.
Proof.
  intros ((_ & T) & _ & B). unfold approx, sn_is_pi, sn_is_e. destruct (ntag x); try reflexivity; rewrite T in B; contradiction.
Qed.
Lemma sn_neg_bd x h : nbd x h -> h < two63 -> exists z, sn_neg Strict x = Ok z /\ nbd z h.
Proof.
  intros B H. pose proof (nbd_approx x h B) as A. destruct (val_neg_bd (nval x) h (proj2 B) H) as (v & E & V).
  assert (sn_neg Strict x = Ok (wrap_val v)) as R by (unfold sn_neg; rewrite A, guard_false, E; reflexivity).
  exists (wrap_val v). split; [exact R|]. split; [exact (sn_neg_ok Strict x _ (proj1 B) R)|exact (wrap_bd v h V)].
Qed.
Lemma sn_add_bd x y h1 h2 : nbd x h1 -> nbd y h2 -> 2 * (h1 * h2) < two63 -> exists z, sn_add Strict x y = Ok z /\ nbd z (2 * (h1 * h2)).
Proof.
  intros B1 B2 H. assert (h1 <= 2 * (h1 * h2) /\ h2 <= 2 * (h1 * h2)) as (L1 & L2) by (destruct B1 as (_ & ? & _), B2 as (_ & ? & _); nia).
  unfold sn_add. destruct (sn_is_zero x) eqn:X; [exists y; split; [reflexivity|exact (nbd_le _ _ _ B2 L2)]|].
  destruct (sn_is_zero y) eqn:Y; [exists x; split; [reflexivity|exact (nbd_le _ _ _ B1 L1)]|].
  destruct (val_add_bd _ _ _ _ (proj2 B1) (proj2 B2) H) as (v & E & V).
  rewrite (nbd_approx x h1 B1), (nbd_approx y h2 B2). cbn [orb]. rewrite guard_false, E. exists (wrap_val v). split; [reflexivity|].
  split; [|exact (wrap_bd v _ V)]. apply (sn_add_ok Strict x y _ (proj1 B1) (proj1 B2)).
  unfold sn_add. rewrite X, Y, (nbd_approx x h1 B1), (nbd_approx y h2 B2). cbn [orb]. rewrite guard_false, E. reflexivity.
Qed.
Lemma sn_sub_bd x y h1 h2 : nbd x h1 -> nbd y h2 -> 2 * (h1 * h2) < two63 -> exists z, sn_sub Strict x y = Ok z /\ nbd z (2 * (h1 * h2)).
Proof.
  intros B1 B2 H. assert (h1 <= 2 * (h1 * h2) /\ h2 <= 2 * (h1 * h2)) as (L1 & L2) by (destruct B1 as (_ & ? & _), B2 as (_ & ? & _); nia).
  unfold sn_sub. destruct (sn_is_zero x) eqn:X.
  { destruct (sn_neg_bd y h2 B2 ltac:(lia)) as (z & E & Z). exists z. split; [exact E|exact (nbd_le _ _ _ Z L2)]. }
  destruct (sn_is_zero y) eqn:Y; [exists x; split; [reflexivity|exact (nbd_le _ _ _ B1 L1)]|].
  destruct (val_sub_bd _ _ _ _ (proj2 B1) (proj2 B2) H) as (v & E & V).
  rewrite (nbd_approx x h1 B1), (nbd_approx y h2 B2). cbn [orb]. rewrite guard_false, E. exists (wrap_val v). split; [reflexivity|].
  split; [|exact (wrap_bd v _ V)]. apply (sn_sub_ok Strict x y _ (proj1 B1) (proj1 B2)).
  unfold sn_sub. rewrite X, Y, (nbd_approx x h1 B1), (nbd_approx y h2 B2). cbn [orb]. rewrite guard_false, E. reflexivity.
Qed.
Lemma sn_mul_bd x y h1 h2 : nbd x h1 -> nbd y h2 -> h1 * h2 < two63 -> exists z, sn_mul Strict x y = Ok z /\ nbd z (h1 * h2).
Proof.
  intros B1 B2 H. assert (h1 <= h1 * h2 /\ h2 <= h1 * h2) as (L1 & L2) by (destruct B1 as (_ & ? & _), B2 as (_ & ? & _); nia).
  unfold sn_mul. destruct (sn_is_one x) eqn:X; [exists y; split; [reflexivity|exact (nbd_le _ _ _ B2 L2)]|].
  destruct (sn_is_one y) eqn:Y; [exists x; split; [reflexivity|exact (nbd_le _ _ _ B1 L1)]|].
  destruct (val_mul_bd _ _ _ _ (proj2 B1) (proj2 B2) H) as (v & E & V).
  rewrite (nbd_approx x h1 B1), (nbd_approx y h2 B2). cbn [orb andb]. rewrite guard_false, E. exists (wrap_val v). split; [reflexivity|].
  split; [|exact (wrap_bd v _ V)]. apply (sn_mul_ok Strict x y _ (proj1 B1) (proj1 B2)).
  unfold sn_mul. rewrite X, Y, (nbd_approx x h1 B1), (nbd_approx y h2 B2). cbn [orb andb]. rewrite guard_false, E. reflexivity.
Qed.
Lemma sn_div_bd x y h1 h2 : nbd x h1 -> nbd y h2 -> val_is_zero (nval y) = false -> h1 * h2 < two63 -> exists z, sn_div Strict x y = Ok z /\ nbd z (h1 * h2).
Proof.
  intros B1 B2 N H.
  destruct (val_div_bd _ _ _ _ (proj2 B1) (proj2 B2) N H) as (v & E & V).
  assert (sn_div Strict x y = Ok (wrap_val v)) as R.
  { unfold sn_div. rewrite (nbd_approx x h1 B1), (nbd_approx y h2 B2). cbn [orb andb]. rewrite guard_false, E. reflexivity. }
  exists (wrap_val v). split; [exact R|]. split; [exact (sn_div_ok Strict x y _ (proj1 B1) (proj1 B2) R)|exact (wrap_bd v _ V)].
Qed.

(** ** expressions *)
Lemma nbd_self m n q : api_number m n -> exact_Q n = Some q -> nbd n (height_num n).
Proof.
  intros A Q. pose proof (api_number_ok m n A) as O. split; [exact O|]. unfold height_num. split; [lia|].
  destruct O as (I & _). unfold num_of, den_of, exact_Q in *. destruct (nval n) as [i|r|f]; [lia| |discriminate Q].
  destruct I as ((S & N & D) & _). cbn [val_Q] in Q. destruct (Z.eqb_spec (rden r) 0); [discriminate|]. split; [exact S|]. lia.
Qed.
Lemma nbd_exact n h : nbd n h -> exists q, exact_Q n = Some q /\ num_R n = Some (Q2R q) /\ height_num n <= h.
Proof.
  intros ((I & T) & G & B). unfold exact_Q, num_R, height_num, num_of, den_of in *. destruct (nval n) as [i|r|f] eqn:V; [| |contradiction].
  - exists (inject_Z i). split; [reflexivity|]. split; [|lia]. destruct (ntag n); try reflexivity; discriminate T.
  - destruct B as (S & N & D). exists (ratQ r). cbn [val_Q]. destruct (Z.eqb_spec (rden r) 0); [lia|].
    split; [reflexivity|]. split; [|lia]. destruct (ntag n); try reflexivity; discriminate T.
Qed.
Lemma nbd_nonzero n h v : nbd n h -> num_R n = Some v -> v <> 0%R -> val_is_zero (nval n) = false.
Proof.
  intros B E N. destruct (nbd_exact n h B) as (q & Q & R & _). rewrite R in E. injection E as <-.
  destruct (val_is_zero (nval n)) eqn:Z; [|reflexivity]. exfalso. apply N. unfold exact_Q in Q. 
  assert (q == 0)%Q as ->; [|unfold Q2R; cbn; ring].
  destruct (nval n) as [i|r|f]; cbn [val_is_zero val_Q] in *; [apply Z.eqb_eq in Z as ->; injection Q as <-; reflexivity| |discriminate].
  apply andb_true_iff in Z as (Z & _). apply Z.eqb_eq in Z. destruct (rden r =? 0); [discriminate|]. injection Q as <-.
  unfold ratQ. rewrite Z, Z.mul_0_r. reflexivity.
Qed.

Lemma ea_wf e : exact_arith e -> wf e.
Proof.
  induction 1 as [m n q A Q| | | | |]; [apply wf_num', (api_number_ok m n A)|apply wf_mk1; [reflexivity|assumption]|..]; (apply wf_mk2; [reflexivity|assumption..]).
Qed.
Lemma ea_ops e : exact_arith e -> forall t, In t [OSin; OCos; OExp; OLn; OPow] -> ~ has_op t e.
Proof.
  assert (forall t n c, ~ has_op t (Expr (Operand (Num n)) c) \/ c <> []) as L.
  { intros t n c. destruct c; [left|right; discriminate]. intros (op & c & _ & S). inversion S; subst. contradiction. }
  induction 1 as [m n q A Q|a A IH|a b A IHa B IHb|a b A IHa B IHb|a b A IHa B IHb|a b A IHa B IHb]; intros t T.
  - destruct (L t n []) as [K|K]; [exact K|contradiction].
  - intros (op & c & D & S). inversion S as [e0 E1|? ? ? c' I S' E1]; subst.
    + cbn in T. intuition congruence.
    + destruct I as [<-|[]]. apply (IH _ T). exists op, c. auto.
  - intros (op & c & D & S). inversion S as [e0 E1|? ? ? c' I S' E1]; subst; [cbn in T; intuition congruence|].
    destruct I as [<-|[<-|[]]]; [apply (IHa _ T)|apply (IHb _ T)]; exists op, c; auto.
  - intros (op & c & D & S). inversion S as [e0 E1|? ? ? c' I S' E1]; subst; [cbn in T; intuition congruence|].
    destruct I as [<-|[<-|[]]]; [apply (IHa _ T)|apply (IHb _ T)]; exists op, c; auto.
  - intros (op & c & D & S). inversion S as [e0 E1|? ? ? c' I S' E1]; subst; [cbn in T; intuition congruence|].
    destruct I as [<-|[<-|[]]]; [apply (IHa _ T)|apply (IHb _ T)]; exists op, c; auto.
  - intros (op & c & D & S). inversion S as [e0 E1|? ? ? c' I S' E1]; subst; [cbn in T; intuition congruence|].
    destruct I as [<-|[<-|[]]]; [apply (IHa _ T)|apply (IHb _ T)]; exists op, c; auto.
Qed.
Lemma ea_avoids e : exact_arith e -> avoids_bad_rules e.
Proof.
  intros E. split.
  - intros a b a' S. exfalso. apply (ea_ops e E OPow); [cbn; tauto|]. exists (gen_op OPow), [a; b]. split; [reflexivity|exact S].
  - intros a a' S. exfalso. apply (ea_ops e E OCos); [cbn; tauto|]. exists (gen_op OCos), [a]. split; [reflexivity|exact S].
Qed.
Lemma h_pos e : exact_arith e -> 1 <= height e.
Proof.
  induction 1; [change (1 <= height_num n); unfold height_num; lia|exact IHexact_arith|..].
  - change (1 <= 2 * (height a * height b)). nia.
  - change (1 <= 2 * (height a * height b)). nia.
  - change (1 <= height a * height b). nia.
  - change (1 <= height a * height b). nia.
Qed.

Lemma agg_height e : exact_arith e -> forall rho v, eval rho e = Some v -> height e < two63 ->
  exists n, num_aggregate Strict e = Ok (e_num n) /\ nbd n (height e) /\ num_R n = Some v.
Proof.
  intros E rho v V H.
  assert (exists n, num_aggregate Strict e = Ok (e_num n) /\ nbd n (height e)) as (n & A & B).
  2:{ exists n. split; [exact A|]. split; [exact B|]. pose proof (agg_sound rho e (ea_wf e E) (ea_avoids e E) _ v A V) as K.
      unfold e_num in K. rewrite eval_num in K. exact K. }
  revert v V H. induction E as [m n q A Q|a A IH|a b A IHa B IHb|a b A IHa B IHb|a b A IHa B IHb|a b A IHa B IHb]; intros v V H.
  - exists n. split; [reflexivity|]. exact (nbd_self m n q A Q).
  - unfold e_neg in V. rewrite eval_mk1 in V. destruct (eval rho a) as [va|] eqn:Va; [|discriminate]. change (height (e_neg a)) with (height a) in *.
    destruct (IH va eq_refl H) as (n & E & B). destruct (sn_neg_bd n _ B H) as (z & Z & BZ). exists z. split; [|exact BZ].
    unfold e_neg. rewrite agg_mk1 by reflexivity. rewrite E. cbn -[sn_neg]. rewrite Z. reflexivity.
  - unfold e_add in V. rewrite eval_mk2 in V. destruct (eval rho a) as [va|] eqn:Va; [|discriminate]. destruct (eval rho b) as [vb|] eqn:Vb; [|discriminate].
    change (height (e_add a b)) with (2 * (height a * height b)) in *. pose proof (h_pos a A). pose proof (h_pos b B).
    destruct (IHa va eq_refl ltac:(nia)) as (na & Ea & Ba). destruct (IHb vb eq_refl ltac:(nia)) as (nb & Eb & Bb).
    destruct (sn_add_bd na nb _ _ Ba Bb H) as (z & Z & BZ). exists z. split; [|exact BZ].
    unfold e_add. rewrite agg_mk2 by reflexivity. rewrite Ea, Eb. cbn -[sn_add]. rewrite Z. reflexivity.
  - unfold e_sub in V. rewrite eval_mk2 in V. destruct (eval rho a) as [va|] eqn:Va; [|discriminate]. destruct (eval rho b) as [vb|] eqn:Vb; [|discriminate].
    change (height (e_sub a b)) with (2 * (height a * height b)) in *. pose proof (h_pos a A). pose proof (h_pos b B).
    destruct (IHa va eq_refl ltac:(nia)) as (na & Ea & Ba). destruct (IHb vb eq_refl ltac:(nia)) as (nb & Eb & Bb).
    destruct (sn_sub_bd na nb _ _ Ba Bb H) as (z & Z & BZ). exists z. split; [|exact BZ].
    unfold e_sub. rewrite agg_mk2 by reflexivity. rewrite Ea, Eb. cbn -[sn_sub]. rewrite Z. reflexivity.
  - unfold e_mul in V. rewrite eval_mk2 in V. destruct (eval rho a) as [va|] eqn:Va; [|discriminate]. destruct (eval rho b) as [vb|] eqn:Vb; [|discriminate].
    change (height (e_mul a b)) with (height a * height b) in *. pose proof (h_pos a A). pose proof (h_pos b B).
    destruct (IHa va eq_refl ltac:(nia)) as (na & Ea & Ba). destruct (IHb vb eq_refl ltac:(nia)) as (nb & Eb & Bb).
    destruct (sn_mul_bd na nb _ _ Ba Bb H) as (z & Z & BZ). exists z. split; [|exact BZ].
    unfold e_mul. rewrite agg_mk2 by reflexivity. rewrite Ea, Eb. cbn -[sn_mul]. rewrite Z. reflexivity.
  - unfold e_div in V. rewrite eval_mk2 in V. destruct (eval rho a) as [va|] eqn:Va; [|discriminate]. destruct (eval rho b) as [vb|] eqn:Vb; [|discriminate].
    change (height (e_div a b)) with (height a * height b) in *. pose proof (h_pos a A). pose proof (h_pos b B).
    destruct (IHa va eq_refl ltac:(nia)) as (na & Ea & Ba). destruct (IHb vb eq_refl ltac:(nia)) as (nb & Eb & Bb).
    cbn [obind ev2] in V. destruct (Req_EM_T vb 0) as [|NZ]; [discriminate|].
    pose proof (agg_sound rho b (ea_wf b B) (ea_avoids b B) _ vb Eb Vb) as K. unfold e_num in K. rewrite eval_num in K.
    destruct (sn_div_bd na nb _ _ Ba Bb (nbd_nonzero nb _ vb Bb K NZ) H) as (z & Z & BZ). exists z. split; [|exact BZ].
    unfold e_div. rewrite agg_mk2 by reflexivity. rewrite Ea, Eb. cbn -[sn_div]. rewrite Z. reflexivity.
Qed.

(** ** C83 *)
(** Closed arithmetic of integers and fractions whose height bound stays below 2^63: both
    builds return one number, whose exact value is the value of the expression. *)
Theorem c83_exact m e rho v : m = Debug \/ m = Release -> exact_arith e -> eval rho e = Some v -> height e < 2 ^ 63 ->
  exists n q, num_aggregate m e = Ok (e_num n) /\ exact_Q n = Some q /\ Q2R q = v /\ height_num n <= height e.
Proof.
  intros Hm E V H. destruct (agg_height e E rho v V H) as (n & A & B & R). destruct (nbd_exact n _ B) as (q & Q & R' & L).
  exists n, q. split; [destruct Hm as [-> | ->]; [apply (agg_mono Strict Debug I e _ A)|apply (agg_mono Strict Release I e _ A)]|].
  split; [exact Q|]. split; [|exact L]. rewrite R in R'. injection R' as ->. reflexivity.
Qed.
Print Assumptions c83_exact.

(** the sum 1/1 + 1/2 + ... + 1/n, as a user would write it *)
Fixpoint harmonic (n : nat) : expr :=
  match n with O => e_zero | S k => e_add (harmonic k) (e_div e_one (e_of_i64 (Z.of_nat n))) end.
Example c83_witness : exact_arith (harmonic 9) /\ height (harmonic 9) < 2 ^ 63 /\
  exists n q, num_aggregate Release (harmonic 9) = Ok (e_num n) /\ exact_Q n = Some q /\ (q == 7129 # 2520)%Q.
Proof.
  split; [|split; [vm_compute; reflexivity|]].
  - assert (forall z, in_i64 z = true -> exact_arith (e_of_i64 z)) as L by (intros z I; exact (ea_num Debug _ _ (An_i64 Debug z I) eq_refl)).
    cbn [harmonic]. repeat (first [apply ea_add | apply ea_div | apply L; reflexivity | exact (L 0 eq_refl) | exact (L 1 eq_refl)]).
  - do 2 eexists. split; [vm_compute; reflexivity|]. split; [vm_compute; reflexivity|]. vm_compute. reflexivity.
Qed.

(** Above the bound the result may be wrong in both builds: the sum of two fractions of height
    below 2^32, each greater than 1, comes out negative. *)
Definition wide (d : Z) : snum := mkNum (Rational (mkRat 1 (2 ^ 32 - 1) d)) TNothing.
Theorem c83_bound_needed m rho : m = Debug \/ m = Release -> exists e v, exact_arith e /\ eval rho e = Some v /\ height e < 2 ^ 65 /\ (2 < v)%R /\
  exists n q, num_aggregate m e = Ok (e_num n) /\ exact_Q n = Some q /\ (q < 0)%Q.
Proof.
  intros Hm.
  assert (exact_arith (e_num (wide (2 ^ 32 - 3)))) as E1
    by exact (ea_num Debug _ _ (An_rational Debug 1 (2 ^ 32 - 1) (2 ^ 32 - 3) (wide (2 ^ 32 - 3)) eq_refl eq_refl eq_refl eq_refl) eq_refl).
  assert (exact_arith (e_num (wide (2 ^ 32 - 5)))) as E2
    by exact (ea_num Debug _ _ (An_rational Debug 1 (2 ^ 32 - 1) (2 ^ 32 - 5) (wide (2 ^ 32 - 5)) eq_refl eq_refl eq_refl eq_refl) eq_refl).
  assert (num_R (wide (2 ^ 32 - 3)) = Some (Q2R (4294967295 # 4294967293))) as R1 by reflexivity.
  assert (num_R (wide (2 ^ 32 - 5)) = Some (Q2R (4294967295 # 4294967291))) as R2 by reflexivity.
  exists (e_add (e_num (wide (2 ^ 32 - 3))) (e_num (wide (2 ^ 32 - 5)))). eexists. split; [exact (ea_add _ _ E1 E2)|].
  split; [unfold e_add, e_num; rewrite eval_mk2, !eval_num, R1, R2; reflexivity|]. split; [vm_compute; reflexivity|]. split.
  - assert (1 < Q2R (4294967295 # 4294967293))%R by (rewrite <- RMicromega.Q2R_1; apply Qlt_Rlt; reflexivity).
    assert (1 < Q2R (4294967295 # 4294967291))%R by (rewrite <- RMicromega.Q2R_1; apply Qlt_Rlt; reflexivity). lra.
  - destruct Hm as [-> | ->]; do 2 eexists; (split; [vm_compute; reflexivity|]); (split; [vm_compute; reflexivity|]); reflexivity.
Qed.
Print Assumptions c83_bound_needed.
