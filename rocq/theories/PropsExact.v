(** * PropsExact: integers and fractions never turn into floats (C68) *)
From Coq Require Import ZArith List String Bool Lia.
From Verif Require Import Base Float Rational SmartNum Ast Compute Spec SpecTree SpecExact.
From Verif Require Import BaseProofs NumProofs NumProofs2 TreeProofs TreeProofs2 TreeProofs3 TreeProofs4 TreeProofs5.
From Verif Require Import ExactProofs PropsTree.
Import ListNotations.
Open Scope Z_scope.
Open Scope string_scope.
Open Scope res_scope.

(** whatever is computed from integers and fractions is an integer or a fraction, and
    to_rational finds it (or panics on i64::MIN in a debug build) *)
Theorem c68_numbers m x : exact_api m x -> not_float x /\ sn_to_rational m x <> Ok None.
Proof.
  intros H. pose proof (exact_api_exact m x H) as E. split; [exact E|].
  unfold not_float in E. unfold sn_to_rational. destruct (nval x); [|discriminate|contradiction].
  intros K. inv_bind K. discriminate K.
Qed.
Print Assumptions c68_numbers.

(** sums, differences, products and negations of integers are integers *)
Theorem c68_integers m x y z : integer_num x -> integer_num y ->
  sn_add m x y = Ok z \/ sn_sub m x y = Ok z \/ sn_mul m x y = Ok z \/ sn_neg m x = Ok z ->
  integer_num z /\ exists v, sn_to_i64 z = Some v.
Proof.
  intros Hx Hy H. assert (integer_num z) as K.
  { destruct H as [H|[H|[H|H]]].
    - exact (proj2 (sn_add_kind _ _ _ _ H) Hx Hy).
    - exact (proj2 (sn_sub_kind _ _ _ _ H) Hx Hy).
    - exact (proj2 (sn_mul_kind _ _ _ _ H) Hx Hy).
    - exact (proj2 (sn_neg_kind _ _ _ H) Hx). }
  split; [exact K|]. unfold sn_to_i64. unfold integer_num in K. destruct (nval z); try contradiction. eexists. reflexivity.
Qed.
Print Assumptions c68_integers.

(** a float only comes out of an operation if one went in *)
Theorem c68_no_new_floats m t x y z : In t [OAdd; OSub; OMul; ODiv] -> sn_op m t x y = Ok z ->
  ~ not_float z -> ~ not_float x \/ ~ not_float y.
Proof.
  intros Ht H Nz.
  assert (t = OAdd \/ t = OSub \/ t = OMul \/ t = ODiv) as Ht' by (cbn in Ht; intuition congruence).
  assert (forall n, not_float n \/ ~ not_float n) as D. { intros n. unfold not_float. destruct (nval n); tauto. }
  destruct (D x) as [Hx|Hx]; [|left; exact Hx]. destruct (D y) as [Hy|Hy]; [|right; exact Hy].
  exfalso. apply Nz. exact (sn_op_kind m t x y z H Ht' Hx Hy).
Qed.
Print Assumptions c68_no_new_floats.

(** the same for expressions that contain no exp *)
Theorem c68_simplify m e z : wf e -> ~ has_op OExp e -> exact_literals e ->
  num_aggregate m e = Ok z -> exact_literals z.
Proof. intros W Ho He H. exact (agg_exact m e W Ho He z H). Qed.
Print Assumptions c68_simplify.
Theorem c68_derivative m x e k d : wf e -> ~ has_op OExp e -> exact_literals e ->
  deriv_n m x k e = Ok d -> exact_literals d.
Proof. intros W Ho He H. exact (proj1 (deriv_n_exact m x k e W Ho He d H)). Qed.
Print Assumptions c68_derivative.
Theorem c68_taylor m x e at_ n t : wf e -> ~ has_op OExp e -> exact_literals e ->
  wf at_ -> ~ has_op OExp at_ -> exact_literals at_ ->
  taylor_expansion m e (e_var x) at_ (Z.of_nat n) = Ok (ROk t) ->
  exact_literals (ex_residual t) /\ forall c, In c (ex_coef t) -> exact_literals c.
Proof.
  intros W Ho He Wa Hoa Hea H. apply c31_shape in H as (_ & _ & _ & Hl & Hr & Hc). split.
  - exact (c68_derivative m x e (S n) _ W Ho He Hr).
  - intros c Hin. apply In_nth_error in Hin as [k Hk].
    assert (k <= n)%nat as Hkn. { pose proof (nth_error_Some (ex_coef t) k) as Q. rewrite Hk in Q. assert (Some c <> None) as S by discriminate. apply Q in S. lia. }
    destruct (Hc k Hkn) as (d & s & ck & E1 & E2 & E3 & E4). rewrite Hk in E4. injection E4 as <-.
    destruct (deriv_n_exact m x k e W Ho He d E1) as (Ed & Od & Wd).
    destruct (subst_exact x at_ d Wd Od Ed Hoa Hea) as [Os Es].
    pose proof (subst_wf x at_ d Wd Wa) as Ws.
    pose proof (agg_exact m _ Ws Os Es _ E2) as Es'. pose proof (hop_agg m _ _ Os E2) as Os'. pose proof (agg_wf m _ _ Ws E2) as Ws'.
    refine (agg_exact m _ _ _ _ _ E3).
    + apply wf_mk2; [reflexivity|exact Ws'|]. apply wf_num', sn_of_i64_ok. apply in_i64_iff, wrap_i64_range.
    + apply hop_mk2; [exact Os'|apply hop_num|discriminate].
    + apply el_mk2. split; [exact Es'|]. apply el_num. exact I.
Qed.
Print Assumptions c68_taylor.

(** with exp it is false: exp(1) + 1 becomes a float *)
Theorem c68_exp_refuted : exists e z n, wf e /\ exact_literals e /\
  num_aggregate Release e = Ok z /\ z = e_num n /\ ~ not_float n.
Proof.
  exists (e_add (e_exp e_one) e_one). eexists. eexists. refine (conj _ (conj _ (conj _ (conj eq_refl _)))).
  - apply wf_mk2; [reflexivity|apply wf_mk1; [reflexivity|apply wf_one]|apply wf_one].
  - apply el_mk2. split; [apply el_mk1, el_one|apply el_one].
  - vm_compute. reflexivity.
  - intros H. exact H.
Qed.
Print Assumptions c68_exp_refuted.

(** 3/4 * sin(x) - x^2 at 1/2 *)
Definition ex_half : snum := mkNum (Rational (mkRat 1 1 2)) TNothing.
Definition ex_exact : expr := e_sub (e_mul (e_num (mkNum (Rational (mkRat 1 3 4)) TNothing)) (e_sin ex_x)) (e_mul ex_x ex_x).
Example c68_example : wf ex_exact /\ ~ has_op OExp ex_exact /\ exact_literals ex_exact /\
  exists t, taylor_expansion Debug ex_exact ex_x (e_num ex_half) 2 = Ok (ROk t).
Proof.
  refine (conj _ (conj _ (conj _ _))).
  - unfold ex_exact, ex_x. repeat first [apply wf_var | apply wf_num' | apply wf_mk1; [reflexivity|] | apply wf_mk2; [reflexivity| |]].
    unfold num_ok, val_inv, rat_inv, two64. cbn. repeat split; try lia; try reflexivity.
  - assert (~ has_op OExp ex_x) as Nx. { intros (op & c & _ & Hs). inversion Hs; subst. match goal with H : In _ [] |- _ => destruct H end. }
    unfold ex_exact, e_sub, e_mul, e_sin. hop; apply hop_num.
  - unfold ex_exact, e_sub, e_mul, e_sin. elt; first [apply el_var|apply el_num; exact I].
  - eexists. vm_compute. reflexivity.
Qed.
Example c68_example_number : exists x, sn_new_rational Debug 1 1 3 = Ok (Some x) /\ exact_api Debug x.
Proof. eexists. split; [vm_compute; reflexivity|]. apply (Ex_rational Debug 1 1 3); reflexivity. Qed.
