(** * PropsMisc: conversions to fractions, classification of expressions, error texts (C49, C50) *)
From Coq Require Import ZArith QArith List String Bool Lia Reals.
From Coq Require Import Floats.SpecFloat.
From Verif Require Import Base Float Rational SmartNum Ast Compute Limit Display.
From Verif Require Import Spec SpecTree SpecR SpecDisp.
From Verif Require Import BaseProofs RationalProofs NumProofs NumProofs2 TreeProofs TreeProofs2 DispProofs.
From Verif Require Import RealProofs.
From Verif Require PropsTree PropsDisp.
Import ListNotations.
Open Scope Z_scope.

Lemma one_num_R x : num_ok x -> sn_is_one x = true -> num_R x = Some 1%R.
Proof.
  intros Hx Hz. destruct (is_one_exact x Hx) as [H _]. destruct (H Hz) as (q & Hq & E).
  assert (approx x = false) as Ha.
  { unfold approx, sn_is_one, sn_is_pi, sn_is_e in *. destruct (ntag x); try discriminate; reflexivity. }
  rewrite num_R_exact by assumption. unfold exact_Q in Hq.
  destruct (nval x) eqn:V; try discriminate; rewrite Hq; cbn; f_equal;
    apply Qreals.Qeq_eqR in E; rewrite E; apply RMicromega.Q2R_1.
Qed.

(** ** C49: to_rational and the classification functions *)

(** to_rational of an integer or a fraction is a valid fraction of exactly that value; the one
    exception is i64::MIN in a debug build *)
Theorem c49_to_rational m m' x q : m = Debug \/ m = Release -> api_number m' x ->
  exact_Q x = Some q -> (m = Debug -> ~ int_min x) ->
  exists r, sn_to_rational m x = Ok (Some r) /\ (rsign r = 1 \/ rsign r = -1) /\
    0 <= rnum r < two64 /\ 0 < rden r < two64 /\ (ratQ r == q)%Q.
Proof.
  intros Hm Hx Hq Hmin. destruct (api_number_ok m' x Hx) as [Hi _].
  unfold sn_to_rational, exact_Q, int_min in *. destruct (nval x) as [v|r|f]; [| |discriminate Hq].
  - cbn [val_inv val_Q] in *. injection Hq as <-.
    assert (exists r, rat_of_i64 m v = Ok r) as (r & E).
    { destruct Hm as [-> | ->].
      - destruct (rat_of_i64_debug v Hi) as (r & E & _); eauto. intros ->. now apply Hmin.
      - unfold rat_of_i64, i64_abs, ovf_i64, cast_u64. destruct (in_i64 (Z.abs v)); cbn [bind];
          match goal with |- context [in_u64 ?a] => destruct (in_u64 a) end; cbn [bind]; eauto. }
    exists r. rewrite E. cbn [bind]. split; [reflexivity|].
    destruct (rat_of_i64_inv m v r Hi E) as (V & D & N & S). destruct V as (_ & V2 & V3).
    split; [rewrite S; destruct (Z.eqb_spec v 0); [auto|]; destruct v; simpl; auto; lia|].
    split; [assumption|]. split; [assumption|].
    unfold ratQ, Qeq, inject_Z. rewrite D, N, S. cbn [Qnum Qden Z.to_pos].
    destruct (Z.eqb_spec v 0); [subst; reflexivity|]. nia.
  - cbn [val_inv val_Q] in *. destruct (Z.eqb_spec (rden r) 0) as [|Nz]; [discriminate Hq|].
    injection Hq as <-. exists r. destruct Hi as ((S & N & D) & Z0).
    split; [reflexivity|]. split; [|split; [assumption|split; [lia|reflexivity]]].
    destruct S as [S|[S|[S _]]]; auto. exfalso. auto.
Qed.
Print Assumptions c49_to_rational.

Theorem c49_to_rational_min x : int_min x -> sn_to_rational Debug x = Panic.
Proof. intros H. unfold sn_to_rational. rewrite H. reflexivity. Qed.
Print Assumptions c49_to_rational_min.

(** integers convert to fractions of the same value *)
Theorem c49_fraction_from_u64 v : in_u64 v = true ->
  rat_valid (rat_of_u64 v) /\ (ratQ (rat_of_u64 v) == inject_Z v)%Q.
Proof.
  intros H. apply in_u64_iff in H. unfold rat_of_u64, rat_valid, ratQ. cbn [rsign rnum rden].
  split; [unfold two64 in *; lia|]. unfold Qeq, inject_Z. cbn [Qnum Qden Z.to_pos]. lia.
Qed.
Print Assumptions c49_fraction_from_u64.
Theorem c49_fraction_from_i64 m v : m = Debug \/ m = Release -> in_i64 v = true ->
  (m = Debug /\ v = - two63 /\ rat_of_i64 m v = Panic) \/
  exists r, rat_of_i64 m v = Ok r /\ rat_valid r /\ (ratQ r == inject_Z v)%Q.
Proof.
  intros Hm Hv. destruct (Z.eq_dec v (- two63)) as [E|N].
  - subst v. destruct Hm as [-> | ->]; [left; repeat split; reflexivity|right].
    eexists. split; [vm_compute; reflexivity|]. split; [unfold rat_valid, two64; cbn; lia|reflexivity].
  - right. destruct (c49_to_rational m m (sn_of_i64 v) (inject_Z v) Hm) as (r & E & S & R & D & Q).
    + now apply An_i64.
    + reflexivity.
    + intros _ H. unfold int_min in H. injection H as H. contradiction.
    + exists r. unfold sn_to_rational in E. cbn [nval sn_of_i64 sn_of_val val_of_i64] in E.
      destruct (rat_of_i64 m v); cbn [bind] in E; try discriminate E. injection E as ->.
      split; [reflexivity|]. split; [|assumption]. unfold rat_valid. tauto.
Qed.
Print Assumptions c49_fraction_from_i64.

(** f64-backed numbers (the constants pi and e included) have no fraction *)
Theorem c49_to_rational_float m x f : nval x = Real f -> sn_to_rational m x = Ok None.
Proof. intros H. unfold sn_to_rational. now rewrite H. Qed.
Print Assumptions c49_to_rational_float.

(** a fraction converts back and forth without change *)
Theorem c49_to_rational_of_fraction m s n d x : m = Debug \/ m = Release ->
  in_i64 s = true -> in_u64 n = true -> in_u64 d = true ->
  sn_new_rational m s n d = Ok (Some x) -> sn_to_rational m x = Ok (Some (mkRat s n d)).
Proof.
  intros Hm Hs Hn Hd H.
  assert (E : nval x = Rational (mkRat s n d)); [|unfold sn_to_rational; now rewrite E].
  unfold sn_new_rational, val_new_rational in H.
  destruct (rat_new m s n d) as [[r|]| | |] eqn:E; cbn [bind] in H; try discriminate H.
  injection H as <-. cbn [nval]. f_equal. unfold rat_new in E.
  destruct (i64_abs m s); cbn [bind] in E; try discriminate E.
  destruct (_ && _)%bool in E; congruence.
Qed.
Print Assumptions c49_to_rational_of_fraction.

(** expressions: only number literals convert *)
Theorem c49_expression_to_rational m e : wf e ->
  (exists n, e = e_num n /\ e_to_rational m e = sn_to_rational m n) \/
  ((forall n, e <> e_num n) /\ e_to_rational m e = Ok None).
Proof.
  intros W. inversion W as [n Hn|x|t c L F]; subst; [left; exists n; split; reflexivity| |];
    right; (split; [intros ? [=]|reflexivity]).
Qed.
Print Assumptions c49_expression_to_rational.

(** the classification functions tell what the expression is *)
Theorem c49_classification e : wf e ->
  (is_operator e = true <-> exists t c, e = Expr (Operator (gen_op t)) c) /\
  (is_operand e = true <-> (exists n, e = e_num n) \/ (exists x, e = e_var x)) /\
  is_operator e = negb (is_operand e) /\
  (is_num e = true <-> exists n, e = e_num n) /\
  (forall n, to_smart_num e = Some n <-> e = e_num n) /\
  (forall x, to_variable e = Some x <-> e = e_var x).
Proof.
  intros W. inversion W as [n Hn|x|t c L F]; subst.
  - repeat match goal with |- _ /\ _ => split end; try reflexivity.
    + split; [discriminate|intros (t & c & [=])].
    + split; [left; exists n; reflexivity|reflexivity].
    + split; [exists n; reflexivity|reflexivity].
    + intros k; split; intros [= ->]; reflexivity.
    + intros k; split; discriminate.
  - repeat match goal with |- _ /\ _ => split end; try reflexivity.
    + split; [discriminate|intros (t & c & [=])].
    + split; [right; exists x; reflexivity|reflexivity].
    + split; [discriminate|intros (n & [=])].
    + intros k; split; discriminate.
    + intros k; split; intros [= ->]; reflexivity.
  - repeat match goal with |- _ /\ _ => split end; try reflexivity.
    + split; [exists t, c; reflexivity|reflexivity].
    + split; [discriminate|intros [(n & [=])|(x & [=])]].
    + split; [discriminate|intros (n & [=])].
    + intros k; split; discriminate.
    + intros k; split; discriminate.
Qed.
Print Assumptions c49_classification.

(** is_zero / is_one recognise exactly the literals with that exact value, is_pi / is_e exactly
    the constants *)
Theorem c49_constants e : wf e ->
  (is_zero e = true <-> exists n q, e = e_num n /\ exact_Q n = Some q /\ (q == 0)%Q) /\
  (is_one e = true <-> exists n q, e = e_num n /\ exact_Q n = Some q /\ (q == 1)%Q) /\
  (is_pi e = true <-> e = e_pi) /\ (is_e e = true <-> e = e_e).
Proof.
  intros W. inversion W as [n Hn|x|t c L F]; subst.
  - change (Expr (Operand (Num n)) []) with (e_num n). unfold is_zero, is_one, is_pi, is_e.
    cbn [lift_od root e_num od_is_zero od_is_one od_is_pi od_is_e]. split; [|split; [|split]].
    + rewrite is_zero_exact by assumption. split; [intros (q & H); exists n, q; tauto|].
      intros (n' & q & [= <-] & H); eauto.
    + rewrite is_one_exact by assumption. split; [intros (q & H); exists n, q; tauto|].
      intros (n' & q & [= <-] & H); eauto.
    + rewrite is_pi_eq by assumption. unfold e_pi. split; [now intros ->|now intros [= <-]].
    + rewrite is_e_eq by assumption. unfold e_e. split; [now intros ->|now intros [= <-]].
  - split; [|split; [|split]]; (split; [discriminate|]); try discriminate; intros (n & q & [=] & _).
  - split; [|split; [|split]]; (split; [discriminate|]); try discriminate; intros (n & q & [=] & _).
Qed.
Print Assumptions c49_constants.

(** ... and evaluate accordingly *)
Theorem c49_constants_value e rho : wf e ->
  (is_zero e = true -> eval rho e = Some 0%R) /\ (is_one e = true -> eval rho e = Some 1%R) /\
  (is_pi e = true -> eval rho e = Some PI) /\ (is_e e = true -> eval rho e = Some (exp 1)).
Proof.
  intros W. destruct (c49_constants e W) as (Z & O & P & E).
  split; [|split; [|split]]; intros H.
  - apply Z in H as (n & q & -> & Hq & Eq). cbn [eval e_num]. inversion W; subst.
    apply zero_num_R; [assumption|]. apply is_zero_exact; eauto.
  - apply O in H as (n & q & -> & Hq & Eq). cbn [eval e_num]. inversion W; subst.
    apply one_num_R; [assumption|]. apply is_one_exact; eauto.
  - apply P in H as ->. reflexivity.
  - apply E in H as ->. reflexivity.
Qed.
Print Assumptions c49_constants_value.

(** operators are compared by kind, whatever symbol and priority they carry *)
Theorem c49_operator_equality a b : op_eqb a b = true <-> descriptor a = descriptor b.
Proof. unfold op_eqb. destruct (descriptor a), (descriptor b); simpl; split; congruence. Qed.
Print Assumptions c49_operator_equality.

(** the three kinds of stored values: exactly one applies; to_i64 and the stored value's own
    to_rational answer for their own kind only *)
Theorem c49_stored_kinds v :
  (val_is_int v = true <-> exists z, val_to_i64 v = Some z) /\
  (val_is_rational v = true <-> exists r, val_to_rational v = Some r) /\
  (val_is_real v = true <-> val_to_i64 v = None /\ val_to_rational v = None) /\
  (forall z, val_to_i64 (Integer z) = Some z) /\ (forall r, val_to_rational (Rational r) = Some r) /\
  ((if val_is_int v then 1 else 0) + (if val_is_rational v then 1 else 0) + (if val_is_real v then 1 else 0) = 1)%nat.
Proof.
  destruct v; cbn; repeat split; intros; try discriminate; eauto;
    repeat match goal with H : exists _, _ |- _ => destruct H | H : _ /\ _ |- _ => destruct H end; discriminate.
Qed.
Print Assumptions c49_stored_kinds.

Example c49_example : exists x,
  sn_new_rational Debug (-1) 6 4 = Ok (Some x) /\
  sn_to_rational Debug x = Ok (Some (mkRat (-1) 6 4)) /\
  sn_to_rational Debug (sn_of_i64 (-7)) = Ok (Some (mkRat (-1) 7 1)) /\
  sn_to_rational Release (sn_of_i64 (- two63)) = Ok (Some (mkRat (-1) two63 1)) /\
  exact_Q (sn_of_i64 (-7)) = Some (inject_Z (-7)) /\ ~ int_min (sn_of_i64 (-7)) /\
  wf (e_num x) /\ is_zero (e_num x) = false /\ is_e e_e = true /\ wf e_e.
Proof.
  eexists. split; [vm_compute; reflexivity|].
  repeat match goal with |- _ /\ _ => split end; try (vm_compute; reflexivity); try discriminate.
  - apply (PropsTree.c18_builders Debug). apply Ae_num, (An_rational Debug (-1) 6 4); reflexivity.
  - apply (PropsTree.c18_builders Debug). apply Ae_num, An_e.
Qed.

(** ** C50: error texts *)
Open Scope string_scope.

(** the error of derivative names the expression that is not a variable *)
Theorem c50_derivative m e to : wf to -> ~ is_variable to ->
  exists err s, derivative m e to = Ok (RErr err) /\ e_to_string to = Ok s /\
    derivative_error_to_string err = Ok (s ++ " cannot be used as a variable").
Proof.
  intros W N. destruct (to_string_total to W 0) as [s Hs]. exists (DerivativeError to), s.
  split; [now apply PropsTree.c28_error_iff|]. split; [exact Hs|].
  cbn [derivative_error_to_string]. unfold e_to_string. rewrite Hs. reflexivity.
Qed.
Print Assumptions c50_derivative.

Theorem c50_taylor m e of_ at_ n : wf of_ -> ~ is_variable of_ ->
  exists err s, taylor_expansion m e of_ at_ n = Ok (RErr err) /\ e_to_string of_ = Ok s /\
    taylor_error_to_string err = Ok ("Cannot expand " ++ s ++ " due to not a variable").
Proof.
  intros W N. destruct (to_string_total of_ W 0) as [s Hs].
  exists (mkTaylorError of_ "not a variable"), s.
  split; [now apply PropsTree.c31_error_iff|]. split; [exact Hs|].
  unfold taylor_error_to_string, e_to_string. cbn [te_expr te_reason]. rewrite Hs. reflexivity.
Qed.
Print Assumptions c50_taylor.

Theorem c50_substitute e u v : ~ is_variable u ->
  exists err, substitute e u v = RErr err /\
    substitute_error_to_string err = "Cannot perform substitution".
Proof. intros N. exists SubstituteError. split; [now apply PropsTree.c27_error_iff|reflexivity]. Qed.
Print Assumptions c50_substitute.

(** every error these calls can return can be printed, provided the arguments are well formed *)
Theorem c50_printable m e to at_ n err1 err2 : wf to ->
  (derivative m e to = Ok (RErr err1) -> exists s, derivative_error_to_string err1 = Ok s) /\
  (taylor_expansion m e to at_ n = Ok (RErr err2) -> exists s, taylor_error_to_string err2 = Ok s).
Proof.
  intros W. destruct (to_string_total to W 0) as [s Hs]. split; intros H.
  - unfold derivative in H. destruct (to_variable to).
    + destruct (deriv m s0 e); cbn [bind] in H; discriminate H.
    + injection H as <-. cbn [derivative_error_to_string]. unfold e_to_string. rewrite Hs. cbn [bind]. eauto.
  - unfold taylor_expansion in H. destruct (to_variable to).
    + destruct (taylor_var m e s0 at_ n); cbn [bind] in H; discriminate H.
    + injection H as <-. unfold taylor_error_to_string, e_to_string. cbn [te_expr te_reason].
      rewrite Hs. cbn [bind]. eauto.
Qed.
Print Assumptions c50_printable.

Example c50_example :
  let e := e_mul (e_of_i64 2) (e_add (e_var "x") (e_num sn_pi)) in
  wf e /\ ~ is_variable e /\
  derivative_error_to_string (DerivativeError e) = Ok "2 * (x + pi) cannot be used as a variable" /\
  taylor_error_to_string (mkTaylorError e "not a variable") =
    Ok "Cannot expand 2 * (x + pi) due to not a variable".
Proof.
  split; [|split; [|split; reflexivity]].
  - apply (PropsTree.c18_builders Debug). apply Ae_mul; [apply Ae_num, An_i64; reflexivity|].
    apply Ae_add; [apply Ae_var|apply Ae_num, An_pi].
  - intros (x & c & [=]).
Qed.
