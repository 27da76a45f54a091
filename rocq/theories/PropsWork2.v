(** * PropsWork2: C56/C98 -- the work on one fixed expression outgrows every exponential *)
From Coq Require Import ZArith List String Bool Lia Arith.
From Verif Require Import Base Float Rational SmartNum Ast Compute Limit Direct Work.
From Verif Require Import Spec SpecTree SpecShape.
From Verif Require Import BaseProofs NumProofs TreeProofs TreeProofs2 TreeProofs3 ShapeProofs RealTaylor PropsTree PropsGrow PropsDepth PropsWork.
Import ListNotations.
Open Scope string_scope.
Open Scope nat_scope.
Open Scope res_scope.

Definition good (m : mode) (e : expr) : Prop := is_num e = false /\ num_aggregate m e = Ok e.
Definition goods (m : mode) (n : nat) (e : expr) : Prop :=
  forall k, k <= n -> exists z, deriv_n m "x" k e = Ok z /\ good m z.

Lemma nn_01 e : is_num e = false -> is_zero e = false /\ is_one e = false.
Proof. destruct e as [[op|[n|x]] c]; intros H; [split; reflexivity|discriminate H|split; reflexivity]. Qed.
Lemma good_add m a b : good m a -> good m b -> good m (e_add a b).
Proof.
  intros [Na Fa] [Nb Fb]. split; [reflexivity|]. unfold e_add. rewrite agg_mk2, Fb by reflexivity. cbn [bind]. rewrite Fa. cbn [bind].
  destruct (nn_01 a Na) as [Za _]. destruct (nn_01 b Nb) as [Zb _].
  cbn [eval_rule]. unfold add_eval_rule, eval2. cbn [pop_unwrap pop bind]. rewrite Na, Za, Zb. reflexivity.
Qed.
Lemma good_mul m a b : good m a -> good m b -> good m (e_mul a b).
Proof.
  intros [Na Fa] [Nb Fb]. split; [reflexivity|]. unfold e_mul. rewrite agg_mk2, Fb by reflexivity. cbn [bind]. rewrite Fa. cbn [bind].
  destruct (nn_01 a Na) as [Za Oa]. destruct (nn_01 b Nb) as [Zb Ob].
  cbn [eval_rule]. unfold mul_eval_rule, eval2. cbn [pop_unwrap pop bind]. rewrite Na, Za, Zb, Oa, Ob. reflexivity.
Qed.
Lemma good_exp m : good m exp_x. Proof. split; destruct m; vm_compute; reflexivity. Qed.
Lemma deriv_exp m : deriv m "x" exp_x = Ok exp_x. Proof. destruct m; vm_compute; reflexivity. Qed.

Lemma deriv_add m a b a' b' : deriv m "x" a = Ok a' -> deriv m "x" b = Ok b' -> good m a' -> good m b' ->
  deriv m "x" (e_add a b) = Ok (e_add a' b').
Proof.
  intros Ha Hb Ga Gb. unfold e_add at 1. rewrite deriv_mk2 by reflexivity. rewrite Hb, Ha. cbn [bind raw2].
  exact (proj2 (good_add m a' b' Ga Gb)).
Qed.
Lemma deriv_mulE m f f' : deriv m "x" f = Ok f' -> good m f -> good m f' ->
  deriv m "x" (e_mul exp_x f) = Ok (e_add (e_mul exp_x f) (e_mul exp_x f')).
Proof.
  intros Hf G G'. unfold e_mul at 1. rewrite deriv_mk2 by reflexivity. rewrite Hf, deriv_exp. cbn [bind raw2].
  exact (proj2 (good_add m _ _ (good_mul m _ _ (good_exp m) G) (good_mul m _ _ (good_exp m) G'))).
Qed.

Lemma goods_S m n f : goods m (S n) f -> exists f', deriv m "x" f = Ok f' /\ good m f' /\ goods m n f'.
Proof.
  intros H. destruct (H 1 ltac:(lia)) as (f' & E & G). cbn [deriv_n] in E. inv_bind E. injection E as ->.
  exists f'. split; [exact Hb|]. split; [exact G|]. intros k Hk. destruct (H (S k) ltac:(lia)) as (z & E & Gz).
  cbn [deriv_n] in E. rewrite Hb in E. exists z. split; [exact E|exact Gz].
Qed.
Lemma goods_le m n k f : k <= n -> goods m n f -> goods m k f.
Proof. intros L H i Hi. apply H. lia. Qed.
Lemma goods_0 m n f : goods m n f -> good m f.
Proof. intros H. destruct (H 0 ltac:(lia)) as (z & E & G). injection E as <-. exact G. Qed.

Lemma add_n m : forall n a b an bn, goods m n a -> goods m n b ->
  deriv_n m "x" n a = Ok an -> deriv_n m "x" n b = Ok bn -> deriv_n m "x" n (e_add a b) = Ok (e_add an bn).
Proof.
  induction n as [|n IH]; intros a b an bn Ga Gb Ha Hb.
  - injection Ha as <-. injection Hb as <-. reflexivity.
  - destruct (goods_S m n a Ga) as (a' & Ea & Ga' & Ga''). destruct (goods_S m n b Gb) as (b' & Eb & Gb' & Gb'').
    cbn [deriv_n] in *. rewrite Ea in Ha. rewrite Eb in Hb. rewrite (deriv_add m a b a' b' Ea Eb Ga' Gb'). cbn [bind] in *.
    apply IH; assumption.
Qed.

(** the k-th derivative of exp(x)*f holds k copies of the (k-1)-th derivative of f and one of the k-th *)
Lemma mulE_n m : forall n f, goods m n f -> forall k, k <= n ->
  exists z, deriv_n m "x" k (e_mul exp_x f) = Ok z /\ good m z /\
  forall a b, (k = 0 \/ deriv_n m "x" (k - 1) f = Ok a) -> deriv_n m "x" k f = Ok b -> k * size a + size b <= size z.
Proof.
  induction n as [|n IH]; intros f G k Hk; destruct k as [|k]; try lia.
  1,2: exists (e_mul exp_x f); pose proof (goods_0 m _ f G) as G0; split; [reflexivity|]; split; [apply good_mul; [apply good_exp|exact G0]|];
    intros a b _ [= <-]; unfold e_mul; rewrite size_mk2; lia.
  destruct (goods_S m n f G) as (f' & Ef & Gf' & G').
  pose proof (goods_0 m _ f G) as G0. pose proof (goods_le m (S n) n f ltac:(lia) G) as Gn.
  destruct (IH f Gn k ltac:(lia)) as (z1 & E1 & Z1 & S1). destruct (IH f' G' k ltac:(lia)) as (z2 & E2 & Z2 & S2).
  assert (M : forall h, goods m n h -> goods m k (e_mul exp_x h)).
  { intros h H i Hi. destruct (IH h H i ltac:(lia)) as (z & E & Gz & _). exists z. auto. }
  exists (e_add z1 z2). split; [|split].
  - cbn [deriv_n]. rewrite (deriv_mulE m f f' Ef G0 Gf'). cbn [bind]. apply add_n; auto.
  - apply good_add; assumption.
  - intros a b [?|Ha] Hb; [lia|]. replace (S k - 1) with k in Ha by lia.
    cbn [deriv_n] in Hb. rewrite Ef in Hb. cbn [bind] in Hb. unfold e_add. rewrite size_mk2.
    assert (Q1 : forall a0, (k = 0 \/ deriv_n m "x" (k - 1) f = Ok a0) -> k * size a0 + size a <= size z1) by (intros a0 H0; apply S1; assumption).
    assert (Q2 : k * size a + size b <= size z2).
    { apply S2; [|exact Hb]. destruct k as [|k]; [left; reflexivity|right]. replace (S k - 1) with k by lia.
      cbn [deriv_n] in Ha. rewrite Ef in Ha. exact Ha. }
    assert (size a <= size z1).
    { destruct k as [|k].
      - specialize (Q1 a (or_introl eq_refl)). lia.
      - destruct (Gn k ltac:(lia)) as (a0 & E0 & _). assert (E0' : deriv_n m "x" (S k - 1) f = Ok a0) by (replace (S k - 1) with k by lia; exact E0).
        specialize (Q1 a0 (or_intror E0')). lia. }
    lia.
Qed.

Definition exp_exp : expr := e_exp exp_x.
Lemma deriv_ee m : deriv m "x" exp_exp = Ok (e_mul exp_x exp_exp).
Proof. destruct m; vm_compute; reflexivity. Qed.
Lemma good_ee m : good m exp_exp.
Proof. split; destruct m; vm_compute; reflexivity. Qed.
Lemma ee_goods m : forall n, goods m n exp_exp.
Proof.
  induction n as [|n IH]; intros k Hk.
  - replace k with 0 by lia. exists exp_exp. split; [reflexivity|apply good_ee].
  - destruct k as [|k]; [exists exp_exp; split; [reflexivity|apply good_ee]|].
    destruct (mulE_n m n exp_exp IH k ltac:(lia)) as (z & E & G & _). exists z. split; [|exact G].
    cbn [deriv_n]. rewrite deriv_ee. exact E.
Qed.

(** C56: the derivative of order 2n of the three nodes exp(exp(x)) has at least n! nodes *)
Theorem c56_factorial m n : exists d, deriv_n m "x" (2 * n) (e_exp (e_exp (e_var "x"))) = Ok d /\ fact n <= size d.
Proof.
  change (e_exp (e_exp (e_var "x"))) with exp_exp.
  induction n as [|n IH].
  - exists exp_exp. split; [reflexivity|]. pose proof (size_1 exp_exp). cbn [fact]. lia.
  - destruct IH as (a & Ha & Sa). replace (2 * S n) with (S (S (2 * n))) by lia.
    destruct (mulE_n m (S (2 * n)) exp_exp (ee_goods m _) (S (2 * n)) ltac:(lia)) as (z & E & _ & Sz).
    exists z. split; [cbn [deriv_n]; rewrite deriv_ee; exact E|].
    destruct (ee_goods m (S (2 * n)) (S (2 * n)) ltac:(lia)) as (b & Hb & _).
    assert (Ha' : deriv_n m "x" (S (2 * n) - 1) exp_exp = Ok a) by (replace (S (2 * n) - 1) with (2 * n) by lia; exact Ha).
    specialize (Sz a b (or_intror Ha') Hb).
    pose proof (size_1 b). change (fact (S n)) with (S n * fact n).
    assert (S n * fact n <= S (2 * n) * size a) by (apply Nat.mul_le_mono; lia). lia.
Qed.

Lemma fact_pow c : forall j, c ^ j <= fact (c + j).
Proof.
  induction j as [|j IH].
  - pose proof (lt_O_fact (c + 0)). cbn [Nat.pow]. lia.
  - replace (c + S j) with (S (c + j)) by lia. change (fact (S (c + j))) with (S (c + j) * fact (c + j)).
    rewrite Nat.pow_succ_r'. apply Nat.mul_le_mono; lia.
Qed.
Lemma pow2_gt j : j < 2 ^ j. Proof. apply Nat.pow_gt_lin_r. lia. Qed.
Lemma fact_beats c : exists n, c ^ n < fact n.
Proof.
  destruct c as [|c]; [exists 1; cbn; lia|]. set (d := S c).
  exists (2 * d + (d ^ (2 * d))). set (j := d ^ (2 * d)). pose proof (fact_pow (2 * d) j) as F. pose proof (pow2_gt j) as P.
  rewrite Nat.pow_mul_l in F. rewrite Nat.pow_add_r. fold j.
  assert (d ^ j <> 0) by (apply Nat.pow_nonzero; unfold d; lia).
  assert (j * d ^ j < 2 ^ j * d ^ j) by (apply Nat.mul_lt_mono_pos_r; lia). lia.
Qed.

(** no exponential bound on the size of the derivatives of this one expression holds *)
Theorem c56_superexponential m b : exists k d,
  deriv_n m "x" k (e_exp (e_exp (e_var "x"))) = Ok d /\ b ^ k < size d.
Proof.
  destruct (fact_beats (b ^ 2)) as (n & Hn). destruct (c56_factorial m n) as (d & Hd & Sd).
  exists (2 * n), d. split; [exact Hd|]. rewrite Nat.pow_mul_r. lia.
Qed.

(** C98: nor on the number of calls its Taylor expansion takes *)
Theorem c98_taylor_factorial at_ n f : wf at_ -> let e := e_exp (e_exp (e_var "x")) in
  (2 * n + 3) * (2 * n + 3) * 3 + depth at_ <= f ->
  fact (S n) <= snd (w_taylor f Release e "x" at_ (Z.of_nat (2 * n + 1))).
Proof.
  intros Wat e Hf.
  assert (We : wf e) by (unfold e, e_exp; repeat first [apply wf_mk1; [reflexivity|] | apply wf_var]).
  destruct (c31_release_returns e "x" at_ (Z.of_nat (2 * n + 1)) We Wat) as [t Ht].
  pose proof (c31_shape _ _ _ _ _ _ Ht) as (_ & _ & _ & _ & Hr & _).
  change (deriv_n Release "x" (S (2 * n + 1)) e = Ok (ex_residual t)) in Hr.
  destruct (c56_factorial Release (S n)) as (d & Hd & Sd). fold e in Hd.
  replace (S (2 * n + 1)) with (2 * S n) in Hr by lia. rewrite Hd in Hr. injection Hr as ->.
  destruct (c98_taylor Release e "x" at_ (2 * n + 1) ((2 * size e) ^ (2 ^ (2 * n + 1))) f We Wat ltac:(replace (2 * n + 1 + 2) with (2 * n + 3) by lia; exact Hf)) as (_ & _ & L).
  - intros k d0 Hk Hd0. destruct (PropsShape.c56_iterated Release "x" k e d0 We Hd0) as [B _].
    assert ((2 * size e) ^ (2 ^ k) <= (2 * size e) ^ (2 ^ (2 * n + 1))).
    { apply Nat.pow_le_mono_r; [cbn; lia|]. apply Nat.pow_le_mono_r; [lia|exact Hk]. }
    lia.
  - change (taylor_expansion Release e (e_var "x") at_ (Z.of_nat (2 * n + 1))) with
      (let* t := taylor_var Release e "x" at_ (Z.of_nat (2 * n + 1)) in Ok (@ROk expansion taylor_error t)) in Ht.
    destruct (taylor_var Release e "x" at_ (Z.of_nat (2 * n + 1))) as [t'| | |] eqn:Hb; try discriminate Ht.
    injection Ht as ->. specialize (L t eq_refl). lia.
Qed.
Theorem c98_taylor_superexponential at_ b : wf at_ -> let e := e_exp (e_exp (e_var "x")) in
  exists n, forall f, (n + 2) * (n + 2) * 3 + depth at_ <= f ->
    b ^ n < snd (w_taylor f Release e "x" at_ (Z.of_nat n)).
Proof.
  intros Wat e. destruct (fact_beats (S b ^ 3)) as (n & Hn).
  assert (N : 1 <= n) by (destruct n; [cbn in Hn; lia|lia]).
  exists (2 * n + 1). intros f Hf.
  pose proof (c98_taylor_factorial at_ n f Wat ltac:(replace (2 * n + 1 + 2) with (2 * n + 3) in Hf by lia; exact Hf)) as H.
  rewrite <- Nat.pow_mul_r in Hn.
  assert (b ^ (2 * n + 1) <= S b ^ (2 * n + 1)) by (apply Nat.pow_le_mono_l; lia).
  assert (S b ^ (2 * n + 1) <= S b ^ (3 * n)) by (apply Nat.pow_le_mono_r; lia).
  assert (fact n <= fact (S n)) by (apply fact_le; lia). cbv zeta in H. fold e in H. lia.
Qed.


(** ** a concrete case *)
Example c56_factorial_witness : exists d, deriv_n Debug "x" 6 (e_exp (e_exp (e_var "x"))) = Ok d /\ size d = 2026.
Proof. eexists. split; vm_compute; reflexivity. Qed.
Print Assumptions c56_factorial.
Print Assumptions c56_superexponential.
Print Assumptions c98_taylor_factorial.
Print Assumptions c98_taylor_superexponential.
