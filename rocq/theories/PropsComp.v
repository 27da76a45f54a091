(** * PropsComp: Taylor expansions and substitution (C77) *)
From Coq Require Import ZArith List String Bool Lia Lra Psatz Reals.
From Coquelicot Require Import Coquelicot.
From Verif Require Import Base Float Rational SmartNum Ast Compute Limit Spec SpecTree SpecR SpecBigO SpecTayAlg.
From Verif Require Import BaseProofs TreeProofs TreeProofs2 TreeProofs4 RealProofs RealDeriv2 RealTaylor.
From Verif Require Import PropsTree PropsReal PropsBigO PropsTayAlg.
Import ListNotations.
Open Scope R_scope.

Lemma pow_lip k x y : Rabs x <= 1 -> Rabs y <= 1 -> Rabs (x ^ k - y ^ k) <= INR k * Rabs (x - y).
Proof.
  intros Hx Hy. induction k as [|k IH].
  - cbn. rewrite Rminus_eq_0, Rabs_R0. lra.
  - rewrite S_INR. cbn [pow]. replace (x * x ^ k - y * y ^ k) with (x * (x ^ k - y ^ k) + (x - y) * y ^ k) by ring.
    apply Rle_trans with (1 := Rabs_triang _ _). rewrite !Rabs_mult.
    assert (Rabs (y ^ k) <= 1).
    { rewrite <- RPow_abs. rewrite <- (pow1 k). apply pow_incr. split; [apply Rabs_pos|exact Hy]. }
    pose proof (Rabs_pos x). pose proof (Rabs_pos (x - y)). pose proof (Rabs_pos (x ^ k - y ^ k)). nra.
Qed.

Lemma poly_lip u n b : exists L, 0 <= L /\ forall t t', Rabs (t - b) <= 1 -> Rabs (t' - b) <= 1 ->
  Rabs (polynomial u n b t - polynomial u n b t') <= L * Rabs (t - t').
Proof.
  unfold polynomial. induction n as [|n (L & P & IH)].
  - exists 0. split; [lra|]. intros t t' _ _. cbn. rewrite Rminus_eq_0, Rabs_R0. lra.
  - exists (L + Rabs (u (S n)) * INR (S n)). split.
    { pose proof (Rabs_pos (u (S n))). pose proof (pos_INR (S n)). nra. }
    intros t t' H H'. cbn [sum_f_R0].
    set (p := sum_f_R0 _ n) in *. specialize (IH t t' H H'). fold p in IH.
    set (p' := sum_f_R0 (fun k => u k * (t' - b) ^ k) n) in *.
    replace (p + u (S n) * (t - b) ^ S n - (p' + u (S n) * (t' - b) ^ S n))
      with ((p - p') + u (S n) * ((t - b) ^ S n - (t' - b) ^ S n)) by ring.
    apply Rle_trans with (1 := Rabs_triang _ _). rewrite Rabs_mult.
    pose proof (pow_lip (S n) (t - b) (t' - b) H H') as K. replace (t - b - (t' - b)) with (t - t') in K by ring.
    pose proof (Rabs_pos (u (S n))). nra.
Qed.

Lemma poly_near w n a : exists K, 0 <= K /\ forall s, Rabs (s - a) <= 1 ->
  Rabs (polynomial w n a s - w 0%nat) <= K * Rabs (s - a).
Proof.
  destruct (poly_lip w n a) as (L & P & H). exists L. split; [exact P|]. intros s Hs.
  assert (polynomial w n a a = w 0%nat) as E.
  { unfold polynomial. clear. induction n as [|n IH]; cbn [sum_f_R0]; [cbn [pow]; ring|]. rewrite IH, Rminus_eq_0.
    cbn [pow]. ring. }
  rewrite <- E. apply H; [exact Hs|]. rewrite Rminus_eq_0, Rabs_R0. lra.
Qed.

Lemma big_O_at rho x e a p n v : big_O rho x e a p (S n) -> eval (upd rho x a) e = Some v -> v = p a.
Proof.
  intros (C & eps & P & H) E. destruct (H a) as (v' & E' & B); [rewrite Rminus_eq_0, Rabs_R0; exact P|].
  rewrite E in E'. injection E' as <-. rewrite Rminus_eq_0, Rabs_R0 in B. cbn [pow] in B.
  rewrite Rmult_0_l, Rmult_0_r in B. pose proof (Rabs_pos (v - p a)).
  assert (Rabs (v - p a) = 0) as Z by lra. apply Rabs_eq_0 in Z. lra.
Qed.

Lemma poly_at u n a : polynomial u n a a = u 0%nat.
Proof.
  unfold polynomial. induction n as [|n IH]; cbn [sum_f_R0]; [cbn [pow]; ring|]. rewrite IH, Rminus_eq_0.
  cbn [pow]. ring.
Qed.

(** putting one expansion into the other *)
Lemma big_O_comp rho x e v a b u w n :
  eval (upd rho x a) v = Some b ->
  big_O rho x e b (polynomial u n b) (S n) -> big_O rho x v a (polynomial w n a) (S n) ->
  big_O rho x (subst x v e) a (fun s => polynomial u n b (polynomial w n a s)) (S n).
Proof.
  intros Vb (C1 & e1 & E1 & B1) Bv. pose proof (big_O_at _ _ _ _ _ _ _ Bv Vb) as W0. rewrite poly_at in W0.
  destruct Bv as (C2 & e2 & E2 & B2).
  destruct (poly_lip u n b) as (L & PL & HL). destruct (poly_near w n a) as (K & PK & HK).
  set (M := K + Rabs C2 + 1).
  assert (0 < M) as PM by (unfold M; pose proof (Rabs_pos C2); lra).
  exists (Rabs C1 * M ^ S n + L * Rabs C2), (Rmin (Rmin e2 1) (Rmin (e1 / M) (1 / M))).
  split.
  { repeat apply Rmin_glb_lt; try lra; apply Rdiv_lt_0_compat; lra. }
  intros s Hs.
  assert (Rabs (s - a) < e2 /\ Rabs (s - a) < 1 /\ Rabs (s - a) < e1 / M /\ Rabs (s - a) < 1 / M) as (H1 & H2 & H3 & H4).
  { pose proof (Rmin_l (Rmin e2 1) (Rmin (e1 / M) (1 / M))). pose proof (Rmin_r (Rmin e2 1) (Rmin (e1 / M) (1 / M))).
    pose proof (Rmin_l e2 1). pose proof (Rmin_r e2 1). pose proof (Rmin_l (e1 / M) (1 / M)). pose proof (Rmin_r (e1 / M) (1 / M)). lra. }
  destruct (B2 s H1) as (q & Eq & Q). set (h := Rabs (s - a)) in *. assert (0 <= h) as Ph by apply Rabs_pos.
  assert (h ^ S n <= h) as Hp.
  { cbn [pow]. rewrite <- (Rmult_1_r h) at 3. apply Rmult_le_compat_l; [exact Ph|]. rewrite <- (pow1 n). apply pow_incr. lra. }
  assert (0 <= h ^ S n) as Pp by (apply pow_le; exact Ph).
  assert (Rabs (q - polynomial w n a s) <= Rabs C2 * h ^ S n) as Q'.
  { apply Rle_trans with (1 := Q). apply Rmult_le_compat_r; [exact Pp|apply Rle_abs]. }
  specialize (HK s ltac:(fold h; lra)). fold h in HK. rewrite <- W0 in HK.
  pose proof (Rabs_pos C2) as PC2.
  assert (Rabs (q - b) <= M * h) as Qb.
  { replace (q - b) with ((q - polynomial w n a s) + (polynomial w n a s - b)) by ring.
    apply Rle_trans with (1 := Rabs_triang _ _). unfold M. nra. }
  assert (M * h < e1) as S1. { apply Rmult_lt_reg_r with (/ M); [apply Rinv_0_lt_compat; lra|]. unfold Rdiv in H3. replace (M * h * / M) with h by (field; lra). lra. }
  assert (M * h < 1) as S2. { apply Rmult_lt_reg_r with (/ M); [apply Rinv_0_lt_compat; lra|]. unfold Rdiv in H4. replace (M * h * / M) with h by (field; lra). lra. }
  destruct (B1 q ltac:(lra)) as (z & Ez & Z). exists z. split.
  { rewrite (eval_subst (upd rho x s) x v q e Eq). rewrite <- Ez. apply eval_ext. intros y _.
    unfold upd. destruct (String.eqb y x); reflexivity. }
  assert (Rabs (z - polynomial u n b q) <= Rabs C1 * (M ^ S n * h ^ S n)) as Z'.
  { apply Rle_trans with (1 := Z). apply Rle_trans with (Rabs C1 * Rabs (q - b) ^ S n).
    - apply Rmult_le_compat_r; [apply pow_le, Rabs_pos|apply Rle_abs].
    - apply Rmult_le_compat_l; [apply Rabs_pos|]. rewrite <- Rpow_mult_distr. apply pow_incr. split; [apply Rabs_pos|exact Qb]. }
  assert (Rabs (polynomial w n a s - b) <= 1) as Wb.
  { apply Rle_trans with (1 := HK). unfold M in S2. nra. }
  specialize (HL q (polynomial w n a s) ltac:(lra) Wb).
  replace (z - polynomial u n b (polynomial w n a s))
    with ((z - polynomial u n b q) + (polynomial u n b q - polynomial u n b (polynomial w n a s))) by ring.
  apply Rle_trans with (1 := Rabs_triang _ _).
  assert (L * Rabs (q - polynomial w n a s) <= L * (Rabs C2 * h ^ S n)) by (apply Rmult_le_compat_l; assumption). lra.
Qed.

(** ** C77 the expansion of a substitution is the composition of the expansions *)
Theorem c77_composition rho x e v z at_ a at' b n te tv tz :
  wf e -> wf v -> wf at_ -> wf at' -> substitute e (e_var x) v = ROk z ->
  eval rho at_ = Some a -> eval (upd rho x a) v = Some b -> eval rho at' = Some b ->
  taylor_regular rho x at' b e -> defined (upd rho x b) e -> taylor_regular rho x at_ a v -> taylor_regular rho x at_ a z ->
  taylor_expansion Strict e (e_var x) at' (Z.of_nat n) = Ok (ROk te) ->
  taylor_expansion Strict v (e_var x) at_ (Z.of_nat n) = Ok (ROk tv) ->
  taylor_expansion Strict z (e_var x) at_ (Z.of_nat n) = Ok (ROk tz) ->
  exists u w, (forall k, (k <= n)%nat -> coef_is rho te k (u k)) /\ (forall k, (k <= n)%nat -> coef_is rho tv k (w k)) /\
    w 0%nat = b /\
    big_O rho x z a (fun s => polynomial u n b (polynomial w n a s)) (S n) /\
    forall c, (exists C eps, 0 < eps /\ forall s, Rabs (s - a) < eps ->
       Rabs (polynomial c n a s - polynomial u n b (polynomial w n a s)) <= C * Rabs (s - a) ^ S n) ->
    forall k, (k <= n)%nat -> coef_is rho tz k (c k).
Proof.
  intros We Wv Wa Wb Hz Ea Eb Eb' Re De Rv Rz He Hv Ht.
  assert (z = subst x v e) as -> by (unfold substitute in Hz; cbn [to_variable root e_var] in Hz; congruence).
  destruct (coefs_big_O rho x at' b e n te We Wb Eb' Re De He) as (u & Bu & Cu).
  assert (defined (upd rho x a) v) as Dv by (eexists; exact Eb).
  destruct (coefs_big_O rho x at_ a v n tv Wv Wa Ea Rv Dv Hv) as (w & Bw & Cw).
  pose proof (big_O_comp rho x e v a b u w n Eb Bu Bw) as B.
  exists u, w. split; [exact Cu|]. split; [exact Cw|].
  split. { pose proof (big_O_at _ _ _ _ _ _ _ Bw Eb) as W0. rewrite poly_at in W0. symmetry. exact W0. }
  split; [exact B|]. intros c (C & eps & Pe & Hc).
  assert (defined (upd rho x a) (subst x v e)) as Dz.
  { destruct B as (C' & e' & Pe' & B). destruct (B a) as (q & Eq & _); [rewrite Rminus_eq_0, Rabs_R0; exact Pe'|]. eexists; exact Eq. }
  refine (c69_unique rho x at_ a (subst x v e) n tz c _ Wa Ea Rz Dz Ht _); [apply subst_wf; assumption|].
  destruct B as (C' & e' & Pe' & B). exists (C' + C), (Rmin e' eps). split; [apply Rmin_glb_lt; assumption|].
  intros s Hs. pose proof (Rmin_l e' eps). pose proof (Rmin_r e' eps).
  destruct (B s ltac:(lra)) as (q & Eq & Q). exists q. split; [exact Eq|]. specialize (Hc s ltac:(lra)).
  set (P := polynomial u n b (polynomial w n a s)) in *. replace (q - polynomial c n a s) with ((q - P) - (polynomial c n a s - P)) by ring.
  apply Rle_trans with (1 := Rabs_triang _ _). rewrite Rabs_Ropp. lra.
Qed.
Print Assumptions c77_composition.

(** shifting and scaling the variable: coefficient k is multiplied by c^k *)
Theorem c77_linear rho x e v z at_ a at' c d n te tz :
  wf e -> wf v -> wf at_ -> wf at' -> substitute e (e_var x) v = ROk z ->
  (forall s, eval (upd rho x s) v = Some (c * s + d)) ->
  eval rho at_ = Some a -> eval rho at' = Some (c * a + d) ->
  taylor_regular rho x at' (c * a + d) e -> defined (upd rho x (c * a + d)) e -> taylor_regular rho x at_ a z ->
  taylor_expansion Strict e (e_var x) at' (Z.of_nat n) = Ok (ROk te) ->
  taylor_expansion Strict z (e_var x) at_ (Z.of_nat n) = Ok (ROk tz) ->
  forall k, (k <= n)%nat -> exists q, coef_is rho te k q /\ coef_is rho tz k (q * c ^ k).
Proof.
  intros We Wv Wa Wb Hz Lv Ea Eb Re De Rz He Ht.
  assert (z = subst x v e) as -> by (unfold substitute in Hz; cbn [to_variable root e_var] in Hz; congruence).
  set (b := c * a + d) in *.
  destruct (coefs_big_O rho x at' b e n te We Wb Eb Re De He) as (u & (C & eps & Pe & Bu) & Cu).
  assert (forall s, eval (upd rho x s) (subst x v e) = eval (upd rho x (c * s + d)) e) as Sz.
  { intros s. rewrite (eval_subst (upd rho x s) x v _ e (Lv s)). apply eval_ext. intros y _.
    unfold upd. destruct (String.eqb y x); reflexivity. }
  assert (defined (upd rho x a) (subst x v e)) as Dz. { destruct De as [q Eq]. exists q. rewrite Sz. exact Eq. }
  intros k Hk. exists (u k). split; [apply Cu; exact Hk|].
  refine (c69_unique rho x at_ a (subst x v e) n tz (fun k => u k * c ^ k) _ Wa Ea Rz Dz Ht _ k Hk); [apply subst_wf; assumption|].
  exists (C * Rabs c ^ S n), (eps / (Rabs c + 1)). pose proof (Rabs_pos c) as Pc. split; [apply Rdiv_lt_0_compat; lra|].
  intros s Hs. destruct (Bu (c * s + d)) as (q & Eq & Q).
  { unfold b. replace (c * s + d - (c * a + d)) with (c * (s - a)) by ring. rewrite Rabs_mult.
    apply Rmult_lt_compat_r with (r := Rabs c + 1) in Hs; [|lra]. unfold Rdiv in Hs.
    rewrite Rmult_assoc, Rinv_l, Rmult_1_r in Hs by lra. pose proof (Rabs_pos (s - a)). lra. }
  exists q. split; [rewrite Sz; exact Eq|].
  replace (polynomial (fun k => u k * c ^ k) n a s) with (polynomial u n b (c * s + d)).
  - apply Rle_trans with (1 := Q). unfold b. replace (c * s + d - (c * a + d)) with (c * (s - a)) by ring.
    rewrite Rabs_mult, Rpow_mult_distr. lra.
  - unfold polynomial. apply sum_eq. intros i _. unfold b. replace (c * s + d - (c * a + d)) with (c * (s - a)) by ring.
    rewrite Rpow_mult_distr. ring.
Qed.
Print Assumptions c77_linear.

(** even functions have no odd coefficients at 0, odd functions no even ones *)
Theorem c77_parity rho x e at_ n t (sg : bool) :
  wf e -> wf at_ -> eval rho at_ = Some 0 -> taylor_regular rho x at_ 0 e -> defined (upd rho x 0) e ->
  (forall s p, eval (upd rho x s) e = Some p -> eval (upd rho x (- s)) e = Some (if sg then - p else p)) ->
  taylor_expansion Strict e (e_var x) at_ (Z.of_nat n) = Ok (ROk t) ->
  forall k, (k <= n)%nat -> Nat.odd k = negb sg -> coef_is rho t k 0.
Proof.
  intros We Wa Ea Re De Sy He k Hk Ok.
  destruct (coefs_big_O rho x at_ 0 e n t We Wa Ea Re De He) as (u & (C & eps & Pe & Bu) & Cu).
  set (i := if sg then -1 else 1).
  assert (coef_is rho t k (i * (u k * (-1) ^ k))) as K.
  { refine (c69_unique rho x at_ 0 e n t (fun k => i * (u k * (-1) ^ k)) We Wa Ea Re De He _ k Hk).
    exists C, eps. split; [exact Pe|]. intros s Hs. rewrite Rminus_0_r in Hs.
    destruct (Bu (- s)) as (q & Eq & Q); [rewrite Rminus_0_r, Rabs_Ropp; exact Hs|].
    exists (i * q). split.
    - apply Sy in Eq. rewrite Ropp_involutive in Eq. rewrite Eq. f_equal. unfold i. destruct sg; ring.
    - replace (polynomial (fun k0 => i * (u k0 * (-1) ^ k0)) n 0 s) with (i * polynomial u n 0 (- s)).
      + replace (i * q - i * polynomial u n 0 (- s)) with (i * (q - polynomial u n 0 (- s))) by ring.
        rewrite Rabs_mult. replace (Rabs i) with 1 by (unfold i; destruct sg; [rewrite Rabs_left by lra; ring|rewrite Rabs_R1; reflexivity]).
        rewrite Rmult_1_l. rewrite !Rminus_0_r in *. rewrite Rabs_Ropp in Q. exact Q.
      + unfold polynomial. rewrite scal_sum. apply sum_eq. intros j _. rewrite !Rminus_0_r.
        replace (- s) with ((-1) * s) by ring. rewrite Rpow_mult_distr. ring. }
  pose proof (coef_is_fun _ _ _ _ _ (Cu k Hk) K) as E.
  assert (u k = 0) as Z.
  { destruct sg; cbn [negb] in Ok; unfold i in E.
    - rewrite <- Nat.negb_even in Ok. apply negb_false_iff in Ok. apply Nat.even_spec in Ok as [j ->].
      rewrite pow_mult in E. replace ((-1) ^ 2) with 1 in E by ring. rewrite pow1 in E. lra.
    - apply Nat.odd_spec in Ok as [j Ej]. rewrite Ej, pow_add, pow_mult in E.
      replace ((-1) ^ 2) with 1 in E by ring. rewrite pow1 in E. rewrite Ej. lra. }
  rewrite <- Z. apply Cu. exact Hk.
Qed.
Print Assumptions c77_parity.

(** ** the hypotheses are met: a checker for power-free expressions without pi *)
Fixpoint plain (e : expr) : bool :=
  match e with
  | Expr r c =>
      (match r with
       | Operand (Num n) => negb (sn_is_pi n)
       | Operator op => match descriptor op with OPow => false | _ => true end
       | _ => true
       end) && forallb plain c
  end.
Lemma plain_sub s e : subterm s e -> plain e = true -> plain s = true.
Proof.
  induction 1 as [|s r c c' I S IH]; [tauto|]. intros H. cbn [plain] in H. apply andb_prop in H as [_ H].
  rewrite forallb_forall in H. apply IH, H, I.
Qed.
Lemma plain_no_pi e : plain e = true -> ~ has_pi e.
Proof. intros H (n & c & N & S). apply (plain_sub _ _ S) in H. cbn [plain] in H. rewrite N in H. discriminate. Qed.
Lemma plain_taylor rho x z a e : plain e = true -> taylor_regular rho x (e_of_i64 z) a e.
Proof.
  intros H. assert (forall s, subterm s (e_of_i64 z) -> s = e_of_i64 z) as O.
  { intros s S. inversion S as [|? ? ? ? I _]; [reflexivity|destruct I]. }
  split; [|split; [|split; [|split]]].
  - intros u b S. apply (plain_sub _ _ S) in H. discriminate H.
  - intros u [S|S]; apply plain_no_pi; apply (plain_sub _ _ S) in H; cbn in H; rewrite andb_true_r in H; exact H.
  - intros (op & c & D & S). apply O in S. discriminate S.
  - intros (n & c & N & S). apply O in S. injection S as -> _. unfold sn_is_pi in N.
    revert N. cbn. unfold sn_of_i64, sn_of_val. cbn. destruct (z =? 1)%Z, (z =? 0)%Z; discriminate.
  - split.
    + intros u b S. apply O in S. discriminate S.
    + intros u [S|S]; apply O in S; discriminate S.
Qed.

(** exp(x) with sin(x) put in, at 0 *)
Example c77_composition_example rho :
  let e := e_exp ex_x in let v := e_sin ex_x in let z := e_exp v in
  wf e /\ wf v /\ substitute e ex_x v = ROk z /\ eval (upd rho "x" 0) v = Some 0 /\ eval rho (e_of_i64 0) = Some 0 /\
  taylor_regular rho "x" (e_of_i64 0) 0 e /\ taylor_regular rho "x" (e_of_i64 0) 0 v /\ taylor_regular rho "x" (e_of_i64 0) 0 z /\
  (exists t, taylor_expansion Strict e ex_x (e_of_i64 0) 4 = Ok (ROk t)) /\
  (exists t, taylor_expansion Strict v ex_x (e_of_i64 0) 4 = Ok (ROk t)) /\
  (exists t, taylor_expansion Strict z ex_x (e_of_i64 0) 4 = Ok (ROk t)).
Proof.
  intros e v z.
  assert (wf e) as We by (apply wf_mk1; [reflexivity|apply wf_var]). assert (wf v) as Wv by (apply wf_mk1; [reflexivity|apply wf_var]).
  split; [exact We|]. split; [exact Wv|]. split; [reflexivity|].
  split. { unfold v, e_sin, ex_x, e_var. rewrite eval_mk1, eval_var, upd_same. cbn. rewrite sin_0. reflexivity. }
  split. { unfold e_of_i64, e_num. rewrite eval_num, num_R_int. reflexivity. }
  do 3 (split; [apply plain_taylor; reflexivity|]).
  repeat split;
      match goal with |- exists t, ?X = _ => destruct X as [[t|]| | |] eqn:E; [exists t; reflexivity|exfalso; vm_compute in E; discriminate..] end.
Qed.

(** sin(x) with 2*x put in, at 0: the linear and the cubic coefficient *)
Example c77_linear_example rho :
  let e := e_sin ex_x in let v := e_mul (e_of_i64 2) ex_x in let z := e_sin v in
  exists te tz, taylor_expansion Strict e ex_x (e_of_i64 0) 3 = Ok (ROk te) /\
    taylor_expansion Strict z ex_x (e_of_i64 0) 3 = Ok (ROk tz) /\
    forall k, (k <= 3)%nat -> exists q, coef_is rho te k q /\ coef_is rho tz k (q * 2 ^ k).
Proof.
  intros e v z.
  assert (wf e) as We by (apply wf_mk1; [reflexivity|apply wf_var]).
  assert (wf v) as Wv by (apply wf_mk2; [reflexivity|apply wf_i64; reflexivity|apply wf_var]).
  destruct (taylor_expansion Strict e ex_x (e_of_i64 0) 3) as [[te|]| | |] eqn:E; try (exfalso; vm_compute in E; discriminate).
  destruct (taylor_expansion Strict z ex_x (e_of_i64 0) 3) as [[tz|]| | |] eqn:F; try (exfalso; vm_compute in F; discriminate).
  exists te, tz. split; [reflexivity|]. split; [reflexivity|].
  assert (eval rho (e_of_i64 0) = Some 0) as E0 by (unfold e_of_i64, e_num; rewrite eval_num, num_R_int; reflexivity).
  apply (c77_linear rho "x" e v z (e_of_i64 0) 0 (e_of_i64 0) 2 0 3 te tz We Wv); try (apply wf_i64; reflexivity);
    try (apply plain_taylor; reflexivity); try reflexivity; try assumption.
  - intros s. unfold v, e_mul, e_of_i64, e_num, ex_x, e_var. rewrite eval_mk2, eval_num, num_R_int, eval_var, upd_same. cbn.
    f_equal. ring.
  - rewrite E0. f_equal. ring.
  - unfold e, e_sin, ex_x, e_var. eexists. rewrite eval_mk1, eval_var. reflexivity.
Qed.

(** cos is even, so its expansion at 0 has no odd coefficients *)
Example c77_parity_example rho : exists t, taylor_expansion Strict (e_cos ex_x) ex_x (e_of_i64 0) 5 = Ok (ROk t) /\
  coef_is rho t 1 0 /\ coef_is rho t 3 0 /\ coef_is rho t 5 0.
Proof.
  destruct (taylor_expansion Strict (e_cos ex_x) ex_x (e_of_i64 0) 5) as [[t|]| | |] eqn:E; try (exfalso; vm_compute in E; discriminate).
  exists t. split; [reflexivity|].
  assert (forall k, (k <= 5)%nat -> Nat.odd k = negb false -> coef_is rho t k 0) as K.
  { apply (c77_parity rho "x" (e_cos ex_x) (e_of_i64 0) 5 t false); try assumption.
    - apply wf_mk1; [reflexivity|apply wf_var].
    - apply wf_i64; reflexivity.
    - unfold e_of_i64, e_num. rewrite eval_num, num_R_int. reflexivity.
    - apply plain_taylor; reflexivity.
    - unfold e_cos, ex_x, e_var. eexists. rewrite eval_mk1, eval_var. reflexivity.
    - intros s p. unfold e_cos, ex_x, e_var. rewrite !eval_mk1, !eval_var, !upd_same. cbn. rewrite cos_neg. tauto. }
  repeat split; apply K; try lia; reflexivity.
Qed.
