(** * PropsPoly: Taylor expansion of polynomials (C55) *)
From Coq Require Import ZArith QArith List String Bool Lia.
From Coq Require Import Reals Lra.
From Coquelicot Require Import Coquelicot.
From Verif Require Import Base Float Rational SmartNum Ast Compute Limit Spec SpecTree SpecR SpecPoly.
From Verif Require Import BaseProofs RationalProofs NumProofs NumProofs2 TreeProofs TreeProofs2 TreeProofs3 TreeProofs4 TreeProofs5
  RealProofs RealDeriv RealDeriv2 RealTaylor PolyProofs.
From Verif Require Import PropsTree PropsReal.
Import ListNotations.
Open Scope R_scope.
Open Scope string_scope.

(** a power, sine or cosine inside a polynomial lies in a part free of [x] *)
Lemma poly_sub_free x d e : poly x d e -> forall u, subterm u e ->
  (forall a b, u = e_pow a b -> ~ occurs x a /\ ~ occurs x b).
Proof.
  induction 1 as [d e H|d H|d a H IH|d a b Ha IHa Hb IHb|d a b Ha IHa Hb IHb|d da db a b Ha IHa Hb IHb Hd|d a b Ha IHa Hb];
    intros u S p q ->.
  - assert (~ occurs x (e_pow p q)) as K. { intros [c K]. apply H. exists c. eapply subterm_trans; eassumption. }
    apply free_mk2 in K. exact K.
  - apply subterm_var in S. discriminate.
  - apply subterm_mk1 in S as [S|S]; [discriminate|exact (IH _ S _ _ eq_refl)].
  - apply subterm_mk2 in S as [S|[S|S]]; [discriminate|exact (IHa _ S _ _ eq_refl)|exact (IHb _ S _ _ eq_refl)].
  - apply subterm_mk2 in S as [S|[S|S]]; [discriminate|exact (IHa _ S _ _ eq_refl)|exact (IHb _ S _ _ eq_refl)].
  - apply subterm_mk2 in S as [S|[S|S]]; [discriminate|exact (IHa _ S _ _ eq_refl)|exact (IHb _ S _ _ eq_refl)].
  - apply subterm_mk2 in S as [S|[S|S]]; [discriminate|exact (IHa _ S _ _ eq_refl)|].
    assert (~ occurs x (e_pow p q)) as K. { intros [c K]. apply Hb. exists c. eapply subterm_trans; eassumption. }
    apply free_mk2 in K. exact K.
Qed.
Lemma poly_regular rho x d e a s : poly x d e -> regular (upd rho x a) x e -> regular (upd rho x s) x e.
Proof.
  intros P [H1 H2]. split; [|exact H2]. intros u b S.
  destruct (poly_sub_free x d e P _ S u b eq_refl) as [Fu Fb].
  destruct (H1 u b S) as (v & Ev & K). exists v. split; [|exact K].
  rewrite (eval_upd_absent rho x u s a Fu). exact Ev.
Qed.
Lemma poly_defined rho x d e a s : poly x d e -> defined (upd rho x a) e -> defined (upd rho x s) e.
Proof.
  induction 1 as [d e H|d H|d p H IH|d p q Ha IHa Hb IHb|d p q Ha IHa Hb IHb|d da db p q Ha IHa Hb IHb Hd|d p q Ha IHa Hb];
    intros [v V]; unfold defined in *.
  - exists v. rewrite (eval_upd_absent rho x e s a H). exact V.
  - eexists. apply eval_var.
  - unfold e_neg in *. rewrite eval_mk1 in *. destruct (eval (upd rho x a) p); [|discriminate].
    destruct IH as [w ->]; [eauto|]. eexists. reflexivity.
  - unfold e_add in *. rewrite eval_mk2 in *. destruct (eval (upd rho x a) p); [|discriminate].
    destruct (eval (upd rho x a) q); [|discriminate].
    destruct IHa as [w ->]; [eauto|]. destruct IHb as [w' ->]; [eauto|]. eexists. reflexivity.
  - unfold e_sub in *. rewrite eval_mk2 in *. destruct (eval (upd rho x a) p); [|discriminate].
    destruct (eval (upd rho x a) q); [|discriminate].
    destruct IHa as [w ->]; [eauto|]. destruct IHb as [w' ->]; [eauto|]. eexists. reflexivity.
  - unfold e_mul in *. rewrite eval_mk2 in *. destruct (eval (upd rho x a) p); [|discriminate].
    destruct (eval (upd rho x a) q); [|discriminate].
    destruct IHa as [w ->]; [eauto|]. destruct IHb as [w' ->]; [eauto|]. eexists. reflexivity.
  - unfold e_div in *. rewrite eval_mk2 in *. rewrite (eval_upd_absent rho x q s a Hb).
    destruct (eval (upd rho x a) p); [|discriminate].
    destruct (eval (upd rho x a) q) as [w|]; [|discriminate].
    destruct IHa as [w' ->]; [eauto|]. cbn [obind ev2] in *. destruct (Req_EM_T w 0); [discriminate|]. eexists. reflexivity.
Qed.

(** ** C55 Taylor expansions of polynomials have no remainder *)
(** expanding a polynomial to at least its degree leaves the residual 0, literally, in both
    builds, at every point *)
Theorem c55_residual m e x at_ d n t :
  wf e -> poly x d e -> (d <= n)%nat ->
  taylor_expansion m e (e_var x) at_ (Z.of_nat n) = Ok (ROk t) ->
  ex_residual t = e_zero.
Proof.
  intros W P L H. apply c31_shape in H as (_ & _ & _ & _ & H & _).
  exact (deriv_n_poly m x (S n) d e _ P W ltac:(lia) H).
Qed.
Print Assumptions c55_residual.

(** so the coefficients give the polynomial exactly, at every y *)
Theorem c55_exact rho x at_ a e d n t :
  wf e -> wf at_ -> poly x d e -> (d <= n)%nat -> eval rho at_ = Some a ->
  taylor_regular rho x at_ a e -> defined (upd rho x a) e ->
  taylor_expansion Strict e (e_var x) at_ (Z.of_nat n) = Ok (ROk t) ->
  forall y, eval (upd rho x y) e =
    Some (sum_f_R0 (fun k => value rho (nth k (ex_coef t) e_zero) * (y - a) ^ k) n).
Proof.
  intros We Wat P L Ha Hg Hd H y.
  pose proof (c55_residual Strict e x at_ d n t We P L H) as Hres.
  assert (regular (upd rho x a) x e) as Ra.
  { destruct Hg as (G1 & G2 & _). split; [|exact G2]. intros u b S. destruct (G1 u b S) as (v & Ev & K1 & K2 & K3).
    exists v. refine (conj Ev (conj K1 (conj K2 _))). destruct K3 as [(z & _ & Kz)|K3]; [left; eauto|right; exact K3]. }
  destruct (Req_EM_T y a) as [->|Ny].
  - destruct (c32_coefficients rho x at_ a e n t We Wat Ha Hg Hd H 0%nat ltac:(lia)) as (c0 & H0 & E0 & _).
    assert (forall j, sum_f_R0 (fun k => value rho (nth k (ex_coef t) e_zero) * (a - a) ^ k) j = value rho c0) as S.
    { induction j as [|j IHj]; cbn [sum_f_R0].
      - rewrite (nth_error_nth (ex_coef t) 0 e_zero H0). cbn [pow]. ring.
      - rewrite IHj. cbn [pow]. replace (a - a) with 0 by ring. ring. }
    rewrite S. unfold value. rewrite E0. destruct Hd as [v Hv]. rewrite Hv. f_equal.
    cbn [Derive_n fact INR]. unfold evalx. rewrite Hv. field.
  - destruct (c33_lagrange rho x at_ a e n t y We Wat Ha Hg) as (z & _ & _ & E); [|exact H|exact Ny|].
    { intros s _. split; [eapply poly_regular; eassumption|eapply poly_defined; eassumption]. }
    rewrite E, Hres. f_equal.
    assert (forall r, value r e_zero = 0) as Z.
    { intros r. unfold value, e_zero, e_of_i64, e_num. rewrite eval_num, num_R_int. reflexivity. }
    rewrite Z. unfold Rdiv. rewrite !Rmult_0_l. apply Rplus_0_r.
Qed.
Print Assumptions c55_exact.

(** (x*x - y) * (x + 3/2) + x/7 expanded at 2 to order 3 *)
Definition ex_poly : expr :=
  e_add (e_mul (e_sub (e_mul ex_x ex_x) ex_y) (e_add ex_x (e_div (e_of_i64 3) (e_of_i64 2)))) (e_div ex_x (e_of_i64 7)).
Lemma nocc_var x y : x <> y -> ~ occurs x (e_var y).
Proof. intros N O. apply N. exact (proj1 (occurs_var x y) O). Qed.
Example c55_example rho :
  wf ex_poly /\ poly "x" 3 ex_poly /\ taylor_regular rho "x" (e_of_i64 2) 2 ex_poly /\
  defined (upd rho "x" 2) ex_poly /\
  exists t, taylor_expansion Strict ex_poly ex_x (e_of_i64 2) 3 = Ok (ROk t).
Proof.
  split; [|split; [|split; [|split]]].
  - unfold ex_poly, e_add, e_mul, e_sub, e_div.
    repeat first [apply wf_mk2; [reflexivity| |]|apply wf_var|apply wf_i64; reflexivity].
  - unfold ex_poly. apply p_add.
    + apply (p_mul _ _ 2 1); [|apply p_add|lia].
      * apply p_sub; [apply (p_mul _ _ 1 1); [apply p_var; lia|apply p_var; lia|lia]|].
        apply p_free, nocc_var. discriminate.
      * apply p_var. lia.
      * apply p_free. unfold e_div. apply mk2_free; apply occurs_num.
    + apply p_div; [apply p_var; lia|apply occurs_num].
  - assert (forall V : string -> Prop, (forall y, y <> "x" -> V y) -> forall s, rgen V (fun b => ~ occurs "x" b) (upd rho "x" s) ex_poly) as G.
    { intros V HV s. unfold ex_poly, e_mul, e_add, e_sub, e_div, e_of_i64, ex_x, ex_y, e_num, e_var. reg. }
    destruct (G (fun y => y <> "x") (fun y H => H) 2) as [G1 G2].
    refine (conj G1 (conj G2 (conj _ (conj _ _)))).
    + intros (op & c & D & K). apply subterm_num in K. discriminate.
    + intros K. apply (proj1 (has_pi_num _)) in K. discriminate.
    + apply regular_rgen. apply rgen_num.
  - unfold defined, ex_poly, e_mul, e_add, e_sub, e_div, e_of_i64, ex_x, ex_y, e_num, e_var.
    repeat (rewrite eval_mk2 || rewrite eval_mk1). rewrite !eval_var, upd_same, !eval_num, !num_R_int.
    cbn [obind ev1 ev2]. destruct (Req_EM_T 2 0); [lra|]. destruct (Req_EM_T 7 0); [lra|]. cbn [obind ev2]. eexists. reflexivity.
  - destruct (taylor_expansion Strict ex_poly ex_x (e_of_i64 2) 3) as [[t|]| | |] eqn:E;
      [exists t; reflexivity|exfalso; vm_compute in E; discriminate..].
Qed.
(** one order less is not enough: the residual of x*x at order 1 is 2 *)
Example c55_sharp : exists t, taylor_expansion Strict (e_mul ex_x ex_x) ex_x (e_of_i64 2) 1 = Ok (ROk t) /\ ex_residual t <> e_zero.
Proof.
  destruct (taylor_expansion Strict (e_mul ex_x ex_x) ex_x (e_of_i64 2) 1) as [[t|]| | |] eqn:E;
      [exists t; split; [reflexivity|]|exfalso; vm_compute in E; discriminate..].
  vm_compute in E. injection E as <-. discriminate.
Qed.
