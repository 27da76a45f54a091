(** * PropsBigO: the O((x-a)^(n+1)) printed after a Taylor expansion (C69) *)
From Coq Require Import ZArith QArith List String Bool Lia Lra.
From Coq Require Import Reals Qreals.
From Coquelicot Require Import Coquelicot.
From Verif Require Import Base Float Rational SmartNum Ast Compute Spec SpecTree SpecR SpecBigO.
From Verif Require Import BaseProofs NumProofs NumProofs2 TreeProofs TreeProofs2 TreeProofs3 TreeProofs4 TreeProofs5.
From Verif Require Import RealProofs RealDeriv RealDeriv2 RealTaylor PropsTree PropsReal.
Import ListNotations.
Open Scope R_scope.
Open Scope string_scope.
Open Scope res_scope.

Lemma deriv_n_wf m x k : forall e d, wf e -> deriv_n m x k e = Ok d -> wf d.
Proof.
  induction k as [|k IH]; intros e d W H; cbn [deriv_n] in H; [congruence|].
  inv_bind H. exact (IH _ _ (deriv_wf _ _ _ _ W Hb) H).
Qed.

Theorem c69_big_O rho x at_ a e n t :
  wf e -> wf at_ -> eval rho at_ = Some a ->
  taylor_regular rho x at_ a e -> defined (upd rho x a) e ->
  taylor_expansion Strict e (e_var x) at_ (Z.of_nat n) = Ok (ROk t) ->
  big_O rho x e a (polynomial (fun k => value rho (nth k (ex_coef t) e_zero)) n a) (S n).
Proof.
  intros We Wat Ha Hg Hd H.
  pose proof (taylor_regular_tguard _ _ _ _ _ Hg) as [Hr _].
  set (V := fun y : string => y <> x) in *.
  assert (good V rho x e a) as G by (split; assumption).
  pose proof (c31_shape _ _ _ _ _ _ H) as (_ & _ & _ & _ & Hres & _).
  destruct (deriv_n_correct V rho x e We (S n) _ Hres a G) as (Rr & Er & _).
  pose proof (deriv_n_wf _ _ _ _ _ We Hres) as Wr.
  destruct (dat_exists V rho x a _ Wr Rr _ Er) as (dr & _ & Dr).
  set (r := evalx rho x (ex_residual t)) in *.
  assert (continuous (T := R_UniformSpace) (U := R_UniformSpace) r a) as Cr.
  { exact (ex_derive_continuous (K := R_AbsRing) (V := R_NormedModule) r a (ex_intro _ dr Dr)). }
  assert (locally (T := R_UniformSpace) a (fun s => Rabs (r s) <= Rabs (r a) + 1)) as Lr.
  { assert (locally (T := R_UniformSpace) (r a) (fun v => Rabs v <= Rabs (r a) + 1)) as L.
    { exists (mkposreal 1 Rlt_0_1). intros v Hv. change (Rabs (v - r a) < 1) in Hv.
      pose proof (Rabs_triang_inv v (r a)). lra. }
    exact (Cr (fun v => Rabs v <= Rabs (r a) + 1) L). }
  pose proof (good_open V rho x e a We G) as Lg.
  destruct (filter_and _ _ Lr Lg) as [eps He].
  exists ((Rabs (r a) + 1) / INR (fact (S n))), (pos eps). split; [apply cond_pos|]. intros y Hy.
  assert (forall s, Rmin a y <= s <= Rmax a y -> Rabs (r s) <= Rabs (r a) + 1 /\ good V rho x e s) as Hs.
  { intros s Is. apply He. change (Rabs (s - a) < eps). revert Hy Is. unfold Rmin, Rmax, Rabs.
    destruct (Rle_dec a y), (Rcase_abs (y - a)), (Rcase_abs (s - a)); lra. }
  destruct (Req_dec y a) as [->|Ny].
  - destruct Hd as [v Hv]. exists v. split; [exact Hv|].
    destruct (c32_coefficients rho x at_ a e n t We Wat Ha Hg (ex_intro _ v Hv) H 0%nat ltac:(lia)) as (c0 & N0 & E0 & _).
    assert (polynomial (fun k => value rho (nth k (ex_coef t) e_zero)) n a a = v) as P.
    { unfold polynomial. rewrite (sum_eq _ (fun k => if Nat.eqb k 0 then v else 0)).
      - clear. induction n as [|n IH]; [reflexivity|]. rewrite tech5, IH. cbn. ring.
      - intros [|k] _; cbn [Nat.eqb].
        + rewrite (nth_error_nth (ex_coef t) 0 e_zero N0). unfold value. rewrite E0. cbn [Derive_n pow fact INR].
          unfold evalx. rewrite Hv. field.
        + rewrite Rminus_diag_eq by reflexivity. rewrite pow_ne_zero by discriminate. ring. }
    rewrite P. rewrite Rminus_diag_eq by reflexivity. rewrite Rminus_diag_eq by reflexivity. rewrite Rabs_R0, pow_ne_zero by discriminate.
    rewrite Rmult_0_r. lra.
  - destruct (c33_lagrange rho x at_ a e n t y We Wat Ha Hg) as (z & Hz & _ & E); try assumption.
    { intros s Is. destruct (Hs s Is) as [_ [R D]]. split; [|exact D]. apply regular_rgen.
      revert R. apply rgen_weaken; auto. }
    eexists. split; [exact E|]. fold (polynomial (fun k => value rho (nth k (ex_coef t) e_zero)) n a y).
    match goal with |- Rabs (?p + ?q - ?p) <= _ => replace (p + q - p) with q by ring end.
    change (value (upd rho x z) (ex_residual t)) with (r z).
    destruct (Hs z ltac:(lra)) as [B _].
    unfold Rdiv. rewrite !Rabs_mult, <- RPow_abs.
    assert (0 < INR (fact (S n))) as F by apply INR_fact_lt_0.
    rewrite (Rabs_pos_eq (/ INR (fact (S n)))) by (left; apply Rinv_0_lt_compat; exact F).
    assert (0 <= Rabs (y - a) ^ S n) as Q by (apply pow_le, Rabs_pos).
    assert (0 < / INR (fact (S n))) as F' by (apply Rinv_0_lt_compat; exact F).
    rewrite (Rmult_comm (Rabs (r a) + 1)), (Rmult_comm (Rabs (r z) * _)), Rmult_assoc.
    apply Rmult_le_compat_l; [lra|]. apply Rmult_le_compat_r; assumption.
Qed.
Print Assumptions c69_big_O.

(** ** uniqueness *)
Lemma poly_first c n h : Rabs h <= 1 -> Rabs (sum_f_R0 (fun k => c k * h ^ k) n - c 0%nat) <= Rabs h * sum_f_R0 (fun k => Rabs (c k)) n.
Proof.
  intros Hh. pose proof (Rabs_pos h) as P. induction n as [|n IH].
  - cbn. replace (c 0%nat * 1 - c 0%nat) with 0 by ring. rewrite Rabs_R0. apply Rmult_le_pos; [exact P|apply Rabs_pos].
  - rewrite !tech5. replace (sum_f_R0 (fun k => c k * h ^ k) n + c (S n) * h ^ S n - c 0%nat)
      with ((sum_f_R0 (fun k => c k * h ^ k) n - c 0%nat) + c (S n) * h ^ S n) by ring.
    eapply Rle_trans; [apply Rabs_triang|]. rewrite Rmult_plus_distr_l. apply Rplus_le_compat; [exact IH|].
    rewrite Rabs_mult, <- RPow_abs. cbn [pow].
    assert (Rabs h ^ n <= 1) as Q.
    { clear IH. induction n as [|n IH]; cbn [pow]; [lra|]. pose proof (pow_le (Rabs h) n P). nra. }
    replace (Rabs (c (S n)) * (Rabs h * Rabs h ^ n)) with ((Rabs h * Rabs (c (S n))) * Rabs h ^ n) by ring.
    rewrite <- (Rmult_1_r (Rabs h * Rabs (c (S n)))) at 2. apply Rmult_le_compat_l; [|exact Q].
    apply Rmult_le_pos; [exact P|apply Rabs_pos].
Qed.
Lemma poly_shift c n h : sum_f_R0 (fun k => c k * h ^ k) (S n) = c 0%nat + h * sum_f_R0 (fun k => c (S k) * h ^ k) n.
Proof. induction n as [|n IH]; [cbn; ring|]. rewrite tech5, IH, tech5. cbn [pow]. ring. Qed.
Lemma small_zero v M eps : 0 < eps -> (forall h, 0 < Rabs h < eps -> Rabs v <= M * Rabs h) -> v = 0.
Proof.
  intros He H. destruct (Req_dec v 0) as [E|E]; [exact E|exfalso].
  pose proof (Rabs_pos_lt v E) as Pv. set (m := Rmax M 1).
  assert (1 <= m) as Hm by apply Rmax_r. assert (M <= m) as HM by apply Rmax_l.
  set (h := Rmin (eps / 2) (Rabs v / (2 * m))).
  assert (0 < Rabs v / (2 * m)) as P1 by (apply Rdiv_lt_0_compat; lra).
  assert (0 < h) as Ph. { unfold h. apply Rmin_glb_lt; lra. }
  assert (h <= eps / 2) as Hh by apply Rmin_l. assert (h <= Rabs v / (2 * m)) as Hh' by apply Rmin_r.
  specialize (H h). rewrite (Rabs_pos_eq h) in H by lra. specialize (H ltac:(lra)).
  assert (M * h <= m * (Rabs v / (2 * m))) as K by nra.
  replace (m * (Rabs v / (2 * m))) with (Rabs v / 2) in K by (field; lra). lra.
Qed.
Lemma poly_zero n : forall c C eps, 0 < eps ->
  (forall h, 0 < Rabs h < eps -> Rabs (sum_f_R0 (fun k => c k * h ^ k) n) <= C * Rabs h ^ S n) ->
  forall k, (k <= n)%nat -> c k = 0.
Proof.
  induction n as [|n IH]; intros c C eps He H.
  - assert (c 0%nat = 0) as Z.
    { apply (small_zero (c 0%nat) C eps He). intros h Hh. specialize (H h Hh). cbn in H.
      rewrite !Rmult_1_r in H. exact H. }
    intros k Hk. assert (k = 0%nat) as -> by lia. exact Z.
  - assert (c 0%nat = 0) as Z.
    { set (M := sum_f_R0 (fun k => Rabs (c k)) (S n)).
      apply (small_zero (c 0%nat) (Rabs C + M) (Rmin eps 1)); [apply Rmin_glb_lt; lra|]. intros h [H0 H1].
      assert (Rabs h < eps) as Q1 by (eapply Rlt_le_trans; [exact H1|apply Rmin_l]).
      assert (Rabs h < 1) as Q2 by (eapply Rlt_le_trans; [exact H1|apply Rmin_r]).
      specialize (H h (conj H0 Q1)). pose proof (poly_first c (S n) h ltac:(lra)) as F. fold M in F.
      set (S0 := sum_f_R0 (fun k => c k * h ^ k) (S n)) in *.
      assert (Rabs (c 0%nat) <= Rabs S0 + Rabs (S0 - c 0%nat)) as T.
      { replace (c 0%nat) with (S0 + - (S0 - c 0%nat)) at 1 by ring. eapply Rle_trans; [apply Rabs_triang|]. rewrite Rabs_Ropp. lra. }
      assert (C * Rabs h ^ S (S n) <= Rabs C * Rabs h) as K.
      { assert (Rabs h ^ S (S n) <= Rabs h) as K1.
        { cbn [pow]. assert (0 <= Rabs h * Rabs h ^ n <= 1) as [K2 K3].
          { split; [apply Rmult_le_pos; [lra|apply pow_le; lra]|].
            assert (Rabs h ^ S n <= 1 ^ S n) as K4 by (apply pow_incr; lra). rewrite pow1 in K4. exact K4. }
          nra. }
        pose proof (Rle_abs C). pose proof (pow_le (Rabs h) (S (S n)) ltac:(lra)). pose proof (Rabs_pos C). nra. }
      lra. }
    assert (forall k, (k <= n)%nat -> c (S k) = 0) as IH'.
    { apply (IH (fun k => c (S k)) C eps He). intros h Hh. specialize (H h Hh). rewrite poly_shift, Z, Rplus_0_l, Rabs_mult in H.
      destruct Hh as [Hh _]. apply (Rmult_le_reg_l (Rabs h)); [exact Hh|]. eapply Rle_trans; [exact H|]. cbn [pow]. lra. }
    intros [|k] Hk; [exact Z|]. apply IH'. lia.
Qed.

(** the coefficients are the only ones for which the printed O-term is true *)
Theorem c69_unique rho x at_ a e n t b :
  wf e -> wf at_ -> eval rho at_ = Some a ->
  taylor_regular rho x at_ a e -> defined (upd rho x a) e ->
  taylor_expansion Strict e (e_var x) at_ (Z.of_nat n) = Ok (ROk t) ->
  big_O rho x e a (polynomial b n a) (S n) ->
  forall k, (k <= n)%nat -> exists ck, nth_error (ex_coef t) k = Some ck /\ eval rho ck = Some (b k).
Proof.
  intros We Wat Ha Hg Hd H (C & eps & He & Hb).
  destruct (c69_big_O rho x at_ a e n t We Wat Ha Hg Hd H) as (C' & eps' & He' & Hb').
  set (c := fun k => value rho (nth k (ex_coef t) e_zero)) in *.
  assert (forall k, (k <= n)%nat -> b k - c k = 0) as Z.
  { apply (poly_zero n (fun k => b k - c k) (C + C') (Rmin eps eps')); [apply Rmin_glb_lt; assumption|].
    intros h [_ Hh].
    assert (Rabs h < eps) as Q1 by (eapply Rlt_le_trans; [exact Hh|apply Rmin_l]).
    assert (Rabs h < eps') as Q2 by (eapply Rlt_le_trans; [exact Hh|apply Rmin_r]).
    replace h with ((a + h) - a) in Q1, Q2 by ring.
    destruct (Hb (a + h) Q1) as (v & E & B). destruct (Hb' (a + h) Q2) as (v' & E' & B').
    rewrite E in E'. injection E' as <-. unfold polynomial in B, B'.
    replace ((a + h) - a) with h in B, B' by ring.
    set (pb := sum_f_R0 (fun k => b k * h ^ k) n) in *. set (pc := sum_f_R0 (fun k => c k * h ^ k) n) in *.
    assert (sum_f_R0 (fun k => (b k - c k) * h ^ k) n = pb - pc) as S.
    { unfold pb, pc. rewrite <- minus_sum. apply sum_eq. intros k _. ring. }
    rewrite S. replace (pb - pc) with ((v - pc) + - (v - pb)) by ring.
    eapply Rle_trans; [apply Rabs_triang|]. rewrite Rabs_Ropp. lra. }
  intros k Hk. destruct (c32_coefficients rho x at_ a e n t We Wat Ha Hg Hd H k Hk) as (ck & N & E & _).
  exists ck. split; [exact N|]. specialize (Z k Hk). unfold c in Z. rewrite (nth_error_nth (ex_coef t) k e_zero N) in Z.
  unfold value in Z. rewrite E in *. f_equal. lra.
Qed.
Print Assumptions c69_unique.

(** the hypotheses are those of C33: exp(x) * x^2 at 2, order 3 *)
Example c69_example rho :
  wf ex_tay /\ taylor_regular rho "x" (e_of_i64 2) 2 ex_tay /\ defined (upd rho "x" 2) ex_tay /\
  exists t, taylor_expansion Strict ex_tay ex_x (e_of_i64 2) 3 = Ok (ROk t).
Proof.
  destruct (c33_example rho) as (W & T & I & E). refine (conj W (conj T (conj _ E))).
  apply (I 2). rewrite Rmin_left, Rmax_right by lra. lra.
Qed.
