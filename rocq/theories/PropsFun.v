(** * PropsFun: C60 derivatives and Taylor coefficients depend only on the function,
      C62 Taylor expansions of different orders agree *)
From Coq Require Import ZArith QArith List String Bool Lia Lra.
From Coq Require Import Reals Qreals.
From Coquelicot Require Import Coquelicot.
From Verif Require Import Base Float Rational SmartNum Ast Compute Spec SpecTree SpecR SpecMulti.
From Verif Require Import BaseProofs NumProofs NumProofs2 TreeProofs TreeProofs2 TreeProofs3 TreeProofs4 TreeProofs5.
From Verif Require Import RealProofs RealDeriv RealDeriv2 RealTaylor PropsTree PropsReal.
Import ListNotations.
Open Scope R_scope.
Open Scope string_scope.
Open Scope res_scope.

Lemma same_near_locally rho x t0 a b : same_near rho x t0 a b ->
  locally t0 (fun t => evalx rho x a t = evalx rho x b t).
Proof.
  intros (eps & He & H). exists (mkposreal eps He). intros t Ht. unfold evalx. rewrite (H t); [reflexivity|exact Ht].
Qed.
Lemma same_near_at rho x t0 a b : same_near rho x t0 a b -> eval (upd rho x t0) a = eval (upd rho x t0) b.
Proof. intros (eps & He & H). apply H. rewrite Rminus_eq_0, Rabs_R0. exact He. Qed.

(** ** C60 *)
(** two expressions for the same function have derivatives of the same value *)
Theorem c60_derivative rho x t0 a b da db :
  wf a -> wf b -> regular (upd rho x t0) x a -> regular (upd rho x t0) x b ->
  defined (upd rho x t0) a -> same_near rho x t0 a b ->
  derivative Strict a (e_var x) = Ok (ROk da) -> derivative Strict b (e_var x) = Ok (ROk db) ->
  exists v, eval (upd rho x t0) da = Some v /\ eval (upd rho x t0) db = Some v.
Proof.
  intros Wa Wb Ra Rb [va Va] S Ha Hb.
  pose proof (same_near_at _ _ _ _ _ S) as E. pose proof Va as Vb. rewrite E in Vb.
  destruct (c29_derivative_correct rho x t0 a da va Wa Ra Va Ha) as (v & H1 & _ & D1).
  destruct (c29_derivative_correct rho x t0 b db va Wb Rb Vb Hb) as (w & H2 & _ & D2).
  exists v. split; [exact H1|]. rewrite H2. f_equal.
  apply is_derive_Reals in D1, D2.
  apply (is_derive_ext_loc _ _ _ _ (same_near_locally _ _ _ _ _ S)) in D1.
  rewrite <- (is_derive_unique _ _ _ D2). exact (is_derive_unique _ _ _ D1).
Qed.
Print Assumptions c60_derivative.

(** ... and Taylor coefficients of the same value, whatever orders were asked for *)
Theorem c60_taylor rho x at_ c a b n k ta tb j :
  wf a -> wf b -> wf at_ -> eval rho at_ = Some c ->
  taylor_regular rho x at_ c a -> taylor_regular rho x at_ c b ->
  defined (upd rho x c) a -> same_near rho x c a b ->
  taylor_expansion Strict a (e_var x) at_ (Z.of_nat n) = Ok (ROk ta) ->
  taylor_expansion Strict b (e_var x) at_ (Z.of_nat k) = Ok (ROk tb) ->
  (j <= n)%nat -> (j <= k)%nat ->
  exists ca cb v, nth_error (ex_coef ta) j = Some ca /\ nth_error (ex_coef tb) j = Some cb /\
    eval rho ca = Some v /\ eval rho cb = Some v.
Proof.
  intros Wa Wb Wat Hc Ra Rb Da S Ha Hb Jn Jk.
  assert (Db : defined (upd rho x c) b).
  { destruct Da as [v V]. exists v. rewrite <- (same_near_at _ _ _ _ _ S). exact V. }
  destruct (c32_coefficients rho x at_ c a n ta Wa Wat Hc Ra Da Ha j Jn) as (ca & A1 & A2 & _).
  destruct (c32_coefficients rho x at_ c b k tb Wb Wat Hc Rb Db Hb j Jk) as (cb & B1 & B2 & _).
  exists ca, cb, (Derive_n (evalx rho x a) j c / INR (fact j)).
  split; [exact A1|]. split; [exact B1|]. split; [exact A2|]. rewrite B2. do 2 f_equal.
  symmetry. apply Derive_n_ext_loc. exact (same_near_locally _ _ _ _ _ S).
Qed.
Print Assumptions c60_taylor.

(** simplifying first does not change the derivative's value *)
Theorem c60_simplify_first rho x t0 e z d dz :
  wf e -> regular (upd rho x t0) x e -> defined (upd rho x t0) e ->
  num_aggregate Strict e = Ok z ->
  derivative Strict e (e_var x) = Ok (ROk d) -> derivative Strict z (e_var x) = Ok (ROk dz) ->
  exists v, eval (upd rho x t0) d = Some v /\ eval (upd rho x t0) dz = Some v.
Proof.
  intros W Hr [v0 V] Hz Hd Hdz.
  destruct (c29_derivative_correct rho x t0 e d v0 W Hr V Hd) as (v & H1 & (eps & He & Hdef) & D1).
  pose proof (proj1 (regular_rgen _ _ _) Hr) as Hg.
  pose proof (rgen_avoids _ _ _ _ W Hg) as Av.
  pose proof (agg_wf _ _ _ W Hz) as Wz.
  pose proof (agg_rgen _ _ _ _ (stable_absent x) W Hg _ Hz) as Hgz.
  apply (c60_derivative rho x t0 e z d dz W Wz Hr (proj2 (regular_rgen _ _ _) Hgz)); auto.
  - exists v0. exact V.
  - exists eps. split; [exact He|]. intros t Ht. destruct (Hdef t Ht) as [w Hw].
    rewrite Hw. symmetry. exact (agg_sound _ e W Av z w Hz Hw).
Qed.
Print Assumptions c60_simplify_first.

(** x*x + x and x*(x+1): the same function, different trees, different derivative trees *)
Definition f60a : expr := e_add (e_mul ex_x ex_x) ex_x.
Definition f60b : expr := e_mul ex_x (e_add ex_x e_one).
Example c60_example rho :
  wf f60a /\ wf f60b /\ regular (upd rho "x" 5) "x" f60a /\ regular (upd rho "x" 5) "x" f60b /\
  same_near rho "x" 5 f60a f60b /\
  exists da db, derivative Strict f60a ex_x = Ok (ROk da) /\ derivative Strict f60b ex_x = Ok (ROk db) /\ da <> db.
Proof.
  unfold f60a, f60b, e_add, e_mul. split; [|split; [|split; [|split; [|split]]]].
  - repeat first [apply wf_mk2; [reflexivity| |]|apply wf_var|apply wf_one].
  - repeat first [apply wf_mk2; [reflexivity| |]|apply wf_var|apply wf_one].
  - apply regular_rgen. unfold ex_x, e_var, e_one, e_num. reg.
  - apply regular_rgen. unfold ex_x, e_var, e_one, e_num. reg.
  - exists 1. split; [lra|]. intros t _. repeat rewrite eval_mk2. rewrite eval_one. unfold ex_x, e_var.
    rewrite eval_var. cbn [obind ev2]. f_equal. ring.
  - eexists _, _. split; [vm_compute; reflexivity|]. split; [vm_compute; reflexivity|]. discriminate.
Qed.

Lemma nth_error_ext' {A} : forall l l' : list A, (forall j, nth_error l j = nth_error l' j) -> l = l'.
Proof.
  induction l as [|a l IH]; intros [|b l'] H; try reflexivity; try (specialize (H 0%nat); discriminate H).
  pose proof (H 0%nat) as H0. injection H0 as ->. f_equal. apply IH. intros j. exact (H (S j)).
Qed.

Lemma taylor_loop_prefix m x at_ : forall n k i f r c z, (n <= k)%nat ->
  taylor_loop m x at_ k i f r c = Ok z -> exists w, taylor_loop m x at_ n i f r c = Ok w.
Proof.
  induction n as [|n IH]; intros k i f r c z Hk H; [eexists; reflexivity|].
  destruct k as [|k]; [lia|]. cbn [taylor_loop] in *. do 5 inv_bind H.
  rewrite Hb. cbn [bind]. rewrite Hb0. cbn [bind]. rewrite Hb1. cbn [bind]. rewrite Hb2. cbn [bind].
  rewrite Hb3. cbn [bind]. apply (IH k _ _ _ _ z); [lia|exact H].
Qed.

(** ** C62 the coefficients of a lower order are a prefix of those of a higher order *)
Theorem c62_prefix m e x at_ n k t u : (n <= k)%nat ->
  taylor_expansion m e (e_var x) at_ (Z.of_nat n) = Ok (ROk t) ->
  taylor_expansion m e (e_var x) at_ (Z.of_nat k) = Ok (ROk u) ->
  ex_coef t = firstn (S n) (ex_coef u).
Proof.
  intros Hk Ht Hu.
  apply c31_shape in Ht as (_ & _ & _ & Lt & _ & Ct).
  apply c31_shape in Hu as (_ & _ & _ & Lu & _ & Cu).
  apply nth_error_ext'. intros j. destruct (Nat.le_gt_cases j n) as [J|J].
  - destruct (Ct j J) as (d & s & c & A1 & A2 & A3 & A4).
    destruct (Cu j ltac:(lia)) as (d' & s' & c' & B1 & B2 & B3 & B4).
    rewrite A1 in B1. injection B1 as <-. rewrite A2 in B2. injection B2 as <-. rewrite A3 in B3. injection B3 as <-.
    rewrite A4, <- B4. rewrite <- (firstn_skipn (S n) (ex_coef u)) at 1.
    apply nth_error_app1. rewrite firstn_length. lia.
  - rewrite (proj2 (nth_error_None _ _)) by lia. symmetry. apply nth_error_None. rewrite firstn_length. lia.
Qed.
Print Assumptions c62_prefix.

(** and a lower order works whenever a higher one does *)
Theorem c62_lower_works m e x at_ n k u : (n <= k)%Z ->
  taylor_expansion m e (e_var x) at_ k = Ok (ROk u) ->
  exists t, taylor_expansion m e (e_var x) at_ n = Ok (ROk t).
Proof.
  intros Hk H. unfold taylor_expansion, taylor_var in *. cbn [to_variable root e_var] in *.
  inv_bind H. inv_bind Hb.
  destruct (taylor_loop_prefix m x at_ (Z.to_nat (n + 1)) (Z.to_nat (k + 1)) _ _ _ _ _ ltac:(lia) Hb0) as [[coef res] ->].
  eexists. reflexivity.
Qed.
Print Assumptions c62_lower_works.

(** the residual of order n yields coefficient n+1 and the residual of order n+1 *)
Theorem c62_residual m e x at_ n t u :
  taylor_expansion m e (e_var x) at_ (Z.of_nat n) = Ok (ROk t) ->
  taylor_expansion m e (e_var x) at_ (Z.of_nat (S n)) = Ok (ROk u) ->
  derivative m (ex_residual t) (e_var x) = Ok (ROk (ex_residual u)) /\
  exists s c, num_aggregate m (subst x at_ (ex_residual t)) = Ok s /\
    num_aggregate m (e_div s (e_of_i64 (wrap_i64 (factZ (S n))))) = Ok c /\
    ex_coef u = (ex_coef t ++ [c])%list.
Proof.
  intros Ht Hu. pose proof (c62_prefix m e x at_ n (S n) t u ltac:(lia) Ht Hu) as P.
  apply c31_shape in Ht as (_ & _ & _ & Lt & Rt & _).
  apply c31_shape in Hu as (_ & _ & _ & Lu & Ru & Cu). split.
  - apply deriv_n_snoc in Ru as (d & R1 & R2). rewrite Rt in R1. injection R1 as <-.
    unfold derivative. cbn [to_variable root e_var]. rewrite R2. reflexivity.
  - destruct (Cu (S n) (le_n _)) as (d & s & c & B1 & B2 & B3 & B4). rewrite Rt in B1. injection B1 as <-.
    exists s, c. split; [exact B2|]. split; [exact B3|]. rewrite P.
    rewrite <- (firstn_skipn (S n) (ex_coef u)) at 1. f_equal.
    rewrite <- (firstn_skipn (S n) (ex_coef u)) in B4.
    rewrite nth_error_app2 in B4 by (rewrite firstn_length; lia).
    rewrite firstn_length, Lu, Nat.min_l, Nat.sub_diag in B4 by lia.
    assert (List.length (skipn (S n) (ex_coef u)) = 1%nat) as L1 by (rewrite skipn_length; lia).
    destruct (skipn (S n) (ex_coef u)) as [|c' [|? ?]]; try discriminate. cbn in B4. congruence.
Qed.
Print Assumptions c62_residual.

Example c62_example : exists t u,
  taylor_expansion Debug (e_div e_one (e_add e_one ex_x)) ex_x e_zero 2 = Ok (ROk t) /\
  taylor_expansion Debug (e_div e_one (e_add e_one ex_x)) ex_x e_zero 4 = Ok (ROk u) /\
  ex_coef t = firstn 3 (ex_coef u).
Proof.
  destruct (taylor_expansion Debug (e_div e_one (e_add e_one ex_x)) ex_x e_zero 4) as [[u|]| | |] eqn:Eu;
    try (vm_compute in Eu; discriminate).
  destruct (c62_lower_works Debug (e_div e_one (e_add e_one ex_x)) "x" e_zero 2 4 u ltac:(lia) Eu) as [t Et].
  exists t, u. split; [exact Et|]. split; [reflexivity|].
  exact (c62_prefix Debug (e_div e_one (e_add e_one ex_x)) "x" e_zero 2 4 t u ltac:(lia) Et Eu).
Qed.
