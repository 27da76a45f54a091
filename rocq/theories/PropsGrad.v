(** * PropsGrad: several variables (C63 mixed partials, C64 gradients, C65 chain rule) *)
From Coq Require Import ZArith QArith List String Bool Lia Lra.
From Coq Require Import Reals Qreals.
From Coquelicot Require Import Coquelicot.
From Verif Require Import Base Float Rational SmartNum Ast Compute Spec SpecTree SpecR SpecMulti.
From Verif Require Import BaseProofs NumProofs NumProofs2 TreeProofs TreeProofs2 TreeProofs3 TreeProofs4 TreeProofs5.
From Verif Require Import RealProofs RealDeriv RealDeriv2 RealTaylor ContProofs MixedProofs GradProofs PropsTree PropsReal.
Import ListNotations.
Open Scope R_scope.
Open Scope string_scope.
Open Scope res_scope.

Lemma derivative_deriv m e x d : derivative m e (e_var x) = Ok (ROk d) -> deriv m x e = Ok d.
Proof. unfold derivative. cbn [to_variable root e_var]. intros H. inv_bind H. congruence. Qed.
Lemma regular_upd_self rho x q e : regular rho q e -> regular (upd rho x (rho x)) q e.
Proof.
  intros [H1 H2]. split; [|exact H2]. intros a b Hs. destruct (H1 a b Hs) as (v & E & K). exists v.
  split; [|exact K]. rewrite <- E. apply eval_ext. intros z _. apply upd_self.
Qed.
Lemma eval_upd_self rho x e : eval (upd rho x (rho x)) e = eval rho e.
Proof. apply eval_ext. intros z _. apply upd_self. Qed.

(** ** C63 the order of two differentiations does not matter for the value *)
Theorem c63_mixed_derivatives rho x y e dx dy dxy dyx :
  wf e -> regular rho x e -> regular rho y e -> defined rho e ->
  derivative Strict e (e_var x) = Ok (ROk dx) -> derivative Strict dx (e_var y) = Ok (ROk dxy) ->
  derivative Strict e (e_var y) = Ok (ROk dy) -> derivative Strict dy (e_var x) = Ok (ROk dyx) ->
  exists v, eval rho dxy = Some v /\ eval rho dyx = Some v.
Proof.
  intros W Rx Ry [v Hv] Hx Hxy Hy Hyx.
  apply derivative_deriv in Hx, Hxy, Hy, Hyx.
  destruct (string_dec x y) as [<-|N].
  - assert (dy = dx) as -> by congruence. assert (dyx = dxy) as -> by congruence.
    apply regular_rgen in Rx.
    pose proof (proj1 (regular_rgen _ _ _) (regular_upd_self rho x x e (proj2 (regular_rgen _ _ _) Rx))) as R.
    destruct (deriv_correct _ rho x (rho x) e W R dx v Hx) as (v1 & E1 & _).
    { rewrite eval_upd_self. exact Hv. }
    pose proof (deriv_rgen _ _ _ _ _ (stable_absent x) W R _ Hx) as R1.
    destruct (deriv_correct _ rho x (rho x) dx (deriv_wf _ _ _ _ W Hx) R1 dxy v1 Hxy E1) as (v2 & E2 & _).
    exists v2. rewrite eval_upd_self in E2. auto.
  - assert (Ep : forall a, eval (sg rho x y (rho x, rho y)) a = eval rho a).
    { intros a. apply eval_ext. intros z _. unfold sg. cbn [fst snd]. unfold upd.
      destruct (String.eqb_spec z y); [subst; reflexivity|]. destruct (String.eqb_spec z x); subst; reflexivity. }
    destruct (mixed rho x y N e dx dy dxy dyx (rho x, rho y)) as (w & E1 & E2); try assumption.
    + split; [|exists v; rewrite Ep; exact Hv]. destruct Rx as [A1 A2]. destruct Ry as [B1 _]. split; [|exact A2].
      intros a b Hs. destruct (A1 a b Hs) as (q & Q1 & Q2 & Q3 & Q4). destruct (B1 a b Hs) as (q' & Q1' & _ & Q3' & _).
      rewrite Q1 in Q1'. injection Q1' as <-. exists q. rewrite Ep. split; [exact Q1|]. split; [exact Q2|]. split.
      * destruct Q3 as [Q3|Q3]; [left; exact Q3|]. destruct Q3' as [Q3'|Q3']; [left; exact Q3'|right; split; assumption].
      * destruct Q4 as [[z ->]|Q4]; [left; exists z; split; [exact I|reflexivity]|right; exact Q4].
    + exists w. rewrite <- (Ep dxy), <- (Ep dyx). auto.
Qed.
Print Assumptions c63_mixed_derivatives.

(** sin(x*y) / (x + y^3) at x = 2, y = 1/2 *)
Definition ex_mixed : expr :=
  e_div (e_sin (e_mul ex_x ex_y)) (e_add ex_x (e_pow ex_y (e_of_i64 3))).
Definition at_mixed : string -> R := fun q => if String.eqb q "x" then 2 else /2.
Example c63_example :
  wf ex_mixed /\ (forall q, regular at_mixed q ex_mixed) /\ defined at_mixed ex_mixed /\
  exists dx dy dxy dyx,
    derivative Strict ex_mixed ex_x = Ok (ROk dx) /\ derivative Strict dx ex_y = Ok (ROk dxy) /\
    derivative Strict ex_mixed ex_y = Ok (ROk dy) /\ derivative Strict dy ex_x = Ok (ROk dyx) /\ dxy <> dyx.
Proof.
  split; [|split; [|split]].
  - unfold ex_mixed, e_div, e_sin, e_mul, e_add, e_pow.
    repeat first [apply wf_mk2; [reflexivity| |]|apply wf_mk1; [reflexivity|]|apply wf_var|apply wf_i64; reflexivity].
  - intros q. apply regular_rgen. unfold ex_mixed, e_div, e_sin, e_mul, e_add, e_pow, e_of_i64, ex_x, ex_y, e_num, e_var. reg.
    + intros _. rewrite has_pi_mk2. intros [H|H]; exact (npi_var _ H).
    + exists (/2). rewrite eval_var. refine (conj eq_refl (conj _ (conj _ _))); [lra|left; lra|].
      left. exists "y". auto.
  - unfold ex_mixed, defined, e_div, e_sin, e_mul, e_add, e_pow, e_of_i64, ex_x, ex_y, e_num, e_var.
    repeat (rewrite eval_mk2 || rewrite eval_mk1). rewrite !eval_var, !eval_num, !num_R_int.
    replace (at_mixed "x") with 2 by reflexivity. replace (at_mixed "y") with (/2) by reflexivity.
    cbn [obind ev1 ev2]. rewrite powR_pos by lra. cbn [obind].
    assert (0 < Rpower (/2) 3) by apply exp_pos.
    cbn [ev2 obind].     destruct (Req_EM_T (2 + Rpower (/2) 3) 0); [lra|]. eexists. reflexivity.
  - destruct (derivative Strict ex_mixed ex_x) as [[dx|]| | |] eqn:Ex; try (vm_compute in Ex; discriminate).
    destruct (derivative Strict ex_mixed ex_y) as [[dy|]| | |] eqn:Ey; try (vm_compute in Ey; discriminate).
    destruct (derivative Strict dx ex_y) as [[dxy|]| | |] eqn:Exy;
      try (vm_compute in Ex; injection Ex as <-; vm_compute in Exy; discriminate).
    destruct (derivative Strict dy ex_x) as [[dyx|]| | |] eqn:Eyx;
      try (vm_compute in Ey; injection Ey as <-; vm_compute in Eyx; discriminate).
    exists dx, dy, dxy, dyx. repeat split; auto. intros E.
    vm_compute in Ex. injection Ex as <-. vm_compute in Ey. injection Ey as <-.
    vm_compute in Exy. injection Exy as <-. vm_compute in Eyx. injection Eyx as <-. discriminate E.
Qed.

(** ** C64 the derivatives by all variables form the gradient: the value at a nearby point is
    the value plus the sum of (derivative by x) * (change of x), up to an error that vanishes
    faster than the change *)
Theorem c64_gradient rho e v xs D :
  wf e -> (forall x, regular rho x e) -> eval rho e = Some v ->
  NoDup xs -> (forall x, In x xs -> derivative Strict e (e_var x) = Ok (ROk (D x))) ->
  forall eps, 0 < eps -> exists delta, 0 < delta /\ forall s,
    (forall x, In x xs -> Rabs (s x - rho x) < delta) -> (forall y, ~ In y xs -> s y = rho y) ->
    exists w, eval s e = Some w /\
      Rabs (w - (v + sumR (fun x => value rho (D x) * (s x - rho x)) xs))
        <= eps * sumR (fun x => Rabs (s x - rho x)) xs.
Proof.
  intros W Hr Hv ND HD eps He.
  destruct (gradient rho e v D W (regular_all_closed rho e Hr) Hv xs ND
    (fun x Hx => derivative_deriv _ _ _ _ (HD x Hx)) eps He) as (d & Pd & K).
  exists d. split; [exact Pd|]. intros s H1 H2.
  destruct (K s) as (w & Hw & B); [|exact H2|].
  - intros y. destruct (in_dec string_dec y xs) as [I|I]; [apply H1, I|]. rewrite (H2 y I), Rminus_eq_0, Rabs_R0. exact Pd.
  - exists w. split; [exact Hw|]. 
    replace (w - (v + sumR (fun x => value rho (D x) * (s x - rho x)) xs))
      with (w - v - sumR (fun x => val0 (eval rho (D x)) * (s x - rho x)) xs); [exact B|].
    unfold value, val0. ring.
Qed.
Print Assumptions c64_gradient.

Example c64_example : exists D, forall x, In x ["x"; "y"] -> derivative Strict ex_mixed (e_var x) = Ok (ROk (D x)).
Proof.
  exists (fun q => match derivative Strict ex_mixed (e_var q) with Ok (ROk d) => d | _ => e_zero end).
  intros x [<-|[<-|[]]]; vm_compute; reflexivity.
Qed.

(** ** C65 differentiating after a substitution: the chain rule *)
Theorem c65_chain_rule rho x y e v z w dz dv ex ey :
  wf e -> wf v -> substitute e (e_var x) v = ROk z -> eval rho v = Some w ->
  (forall q, regular (upd rho x w) q e) -> defined (upd rho x w) e ->
  regular rho y v -> regular rho y z ->
  derivative Strict z (e_var y) = Ok (ROk dz) -> derivative Strict v (e_var y) = Ok (ROk dv) ->
  derivative Strict e (e_var x) = Ok (ROk ex) -> derivative Strict e (e_var y) = Ok (ROk ey) ->
  exists a b c, eval (upd rho x w) ex = Some a /\ eval rho dv = Some b /\ eval (upd rho x w) ey = Some c /\
    eval rho dz = Some (a * b + (if String.eqb y x then 0 else c)).
Proof.
  intros We Wv Hz Hw Hr [f0 Hf0] Rv Rz Hdz Hdv Hex Hey.
  apply derivative_deriv in Hdz, Hdv, Hex, Hey.
  assert (z = subst x v e) as -> by (unfold substitute in Hz; cbn [to_variable root e_var] in Hz; congruence).
  assert (Wz : wf (subst x v e)) by (apply subst_wf; assumption).
  assert (Vz : eval rho (subst x v e) = Some f0) by (rewrite (eval_subst rho x v w e Hw); exact Hf0).
  set (rho1 := upd rho x w) in *.
  assert (Part : forall q d, deriv Strict q e = Ok d -> exists a, eval rho1 d = Some a).
  { intros q d Hd.
    destruct (deriv_correct _ rho1 q (rho1 q) e We (proj1 (regular_rgen _ _ _) (regular_upd_self rho1 q q e (Hr q))) d f0 Hd) as (a & Ha & _).
    - rewrite eval_upd_self. exact Hf0.
    - rewrite eval_upd_self in Ha. eauto. }
  destruct (Part x ex Hex) as [a Ha]. destruct (Part y ey Hey) as [c Hc].
  destruct (deriv_correct _ rho y (rho y) v Wv (proj1 (regular_rgen _ _ _) (regular_upd_self rho y y v Rv)) dv w Hdv) as (b & Hb & Db).
  { rewrite eval_upd_self. exact Hw. }
  rewrite eval_upd_self in Hb.
  destruct (deriv_correct _ rho y (rho y) _ Wz (proj1 (regular_rgen _ _ _) (regular_upd_self rho y y _ Rz)) dz f0 Hdz) as (r & Hrz & _ & Dr).
  { rewrite eval_upd_self. exact Vz. }
  rewrite eval_upd_self in Hrz.
  exists a, b, c. split; [exact Ha|]. split; [exact Hb|]. split; [exact Hc|]. rewrite Hrz. f_equal.
  pose proof (chain rho x y e v w f0 ex ey b We Hw (regular_all_closed _ _ Hr) Hf0 Hex Hey Db) as C.
  fold rho1 in C. rewrite Ha, Hc in C. cbn [val0] in C.
  rewrite <- (is_derive_unique _ _ _ Dr). exact (is_derive_unique _ _ _ C).
Qed.
Print Assumptions c65_chain_rule.

(** e = sin(x*y) / (x + y^3), x := y*y + 1, differentiated by y *)
Definition ex_arg : expr := e_add (e_mul ex_y ex_y) e_one.
Definition at_arg : string -> R := fun _ => /2.
Example c65_example : exists z dz dv,
  substitute ex_mixed ex_x ex_arg = ROk z /\ eval at_arg ex_arg = Some (5/4) /\
  (forall q, regular (upd at_arg "x" (5/4)) q ex_mixed) /\
  regular at_arg "y" ex_arg /\ regular at_arg "y" z /\
  derivative Strict z ex_y = Ok (ROk dz) /\ derivative Strict ex_arg ex_y = Ok (ROk dv).
Proof.
  eexists _, _, _. split; [reflexivity|]. split; [|split; [|split; [|split; [|split]]]].
  - unfold ex_arg, e_add, e_mul. repeat rewrite eval_mk2. rewrite eval_one. unfold ex_y, e_var. rewrite eval_var.
    cbn [obind ev2]. unfold at_arg. f_equal. field.
  - intros q. apply regular_rgen. unfold ex_mixed, e_div, e_sin, e_mul, e_add, e_pow, e_of_i64, ex_x, ex_y, e_num, e_var. reg.
    + intros _. rewrite has_pi_mk2. intros [H|H]; exact (npi_var _ H).
    + exists (/2). rewrite eval_var. refine (conj eq_refl (conj _ (conj _ _))); [lra|left; lra|].
      left. exists "y". auto.
  - apply regular_rgen. unfold ex_arg, e_add, e_mul, ex_y, e_var, e_one, e_num. reg.
  - apply regular_rgen.
    change (rgen (fun _ => True) (fun b => ~ occurs "y" b) at_arg
      (e_div (e_sin (e_mul ex_arg ex_y)) (e_add ex_arg (e_pow ex_y (e_of_i64 3))))).
    unfold ex_arg, e_div, e_sin, e_mul, e_add, e_pow, e_of_i64, ex_y, e_one, e_num, e_var. reg.
    + intros _. rewrite !has_pi_mk2. intros [[[H|H]|H]|H]; try exact (npi_var _ H). exact (npi_one H).
    + exists (/2). rewrite eval_var. refine (conj eq_refl (conj _ (conj _ _))); [lra|left; lra|].
      left. exists "y". auto.
  - vm_compute. reflexivity.
  - vm_compute. reflexivity.
Qed.
