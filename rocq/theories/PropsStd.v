(** * PropsStd: simplifying parts first (C78); the standard series (C79) *)
From Coq Require Import ZArith QArith List String Bool Lia.
From Verif Require Import Base Float Rational SmartNum Ast Compute Limit Display Spec SpecTree SpecStd.
From Verif Require Import BaseProofs RationalProofs NumProofs NumProofs2 ModProofs TreeProofs TreeProofs2 TreeProofs3 TreeProofs4 TreeProofs5.
From Verif Require Import PropsNum PropsTree.
Import ListNotations.
Open Scope Z_scope.

(** ** C78 *)
Lemma agg_subst_cong m x v w : num_aggregate m v = num_aggregate m w ->
  forall e, num_aggregate m (subst x v e) = num_aggregate m (subst x w e).
Proof.
  intros E e. induction e as [r c IH] using expr_ind'. cbn [subst].
  destruct r as [op|[n|y]].
  - cbn [num_aggregate]. f_equal. rewrite !map_map. apply map_ext_in. intros a Ha.
    rewrite Forall_forall in IH. apply IH. exact Ha.
  - reflexivity.
  - destruct (String.eqb y x); [exact E|reflexivity].
Qed.

(** Simplifying a part of an expression before simplifying the whole changes nothing: the part
    is [v], its place is marked by the variable [x] of [e]. *)
Theorem c78_parts_first m e x v w a b : wf v -> ~ has_op OSub v -> num_aggregate m v = Ok w ->
  substitute e (e_var x) v = ROk a -> substitute e (e_var x) w = ROk b ->
  num_aggregate m a = num_aggregate m b.
Proof.
  intros W N H [= <-] [= <-]. apply agg_subst_cong. rewrite H. symmetry. exact (agg_idem m v w W N H).
Qed.
Print Assumptions c78_parts_first.

(** Nothing is skipped: if simplifying a part panics, so does simplifying the whole. *)
Theorem c78_panics m e x v a z : wf e -> occurs x e -> (forall w, num_aggregate m v <> Ok w) ->
  substitute e (e_var x) v = ROk a -> num_aggregate m a <> Ok z.
Proof.
  intros W O H [= <-]. revert W O z. apply (wf_ind1 (fun e => occurs x e -> forall z, num_aggregate m (subst x v e) <> Ok z)).
  - intros n _ O. elim (occurs_num x n O).
  - intros y O z. apply occurs_var in O. subst y. cbn [subst]. rewrite String.eqb_refl. apply H.
  - intros t a Ha _ IH O z E. change (subst x v (mk1 t a)) with (mk1 t (subst x v a)) in E.
    rewrite agg_mk1 in E by exact Ha. apply bind_ok in E as (a' & E & _). exact (IH (proj1 (occurs_mk1 _ _ _) O) _ E).
  - intros t a b Ha _ _ IHa IHb O z E. rewrite subst_mk2 in E. rewrite agg_mk2 in E by exact Ha.
    apply bind_ok in E as (r & E1 & E). apply bind_ok in E as (l & E2 & _).
    apply occurs_mk2 in O as [O|O]; [exact (IHa O _ E2)|exact (IHb O _ E1)].
Qed.
Print Assumptions c78_panics.

(** The same for the expansion point: the coefficients, the residual and the printed text are
    those of the simplified point, and one call returns iff the other does. *)
Theorem c78_taylor m e x at_ w n : wf at_ -> ~ has_op OSub at_ -> num_aggregate m at_ = Ok w ->
  match taylor_expansion m e (e_var x) at_ n, taylor_expansion m e (e_var x) w n with
  | Ok (ROk t), Ok (ROk u) =>
      ex_coef t = ex_coef u /\ ex_residual t = ex_residual u /\ ex_order t = ex_order u /\
      expansion_to_string m t = expansion_to_string m u
  | a, b => a = b
  end.
Proof.
  intros W N H.
  assert (num_aggregate m at_ = num_aggregate m w) as E by (rewrite H; symmetry; exact (agg_idem m at_ w W N H)).
  assert (forall k j f r c, taylor_loop m x at_ k j f r c = taylor_loop m x w k j f r c) as L.
  { induction k as [|k IH]; intros j f r c; [reflexivity|]. cbn [taylor_loop].
    rewrite (agg_subst_cong m x at_ w E r).
    destruct (sn_of_u64 m (Z.max j 1)); try reflexivity. cbn [bind].
    destruct (sn_mul m f a); try reflexivity. cbn [bind].
    destruct (num_aggregate m (subst x w r)); try reflexivity. cbn [bind].
    destruct (num_aggregate m (e_div a1 (e_num a0))); try reflexivity. cbn [bind].
    destruct (deriv m x r); try reflexivity. cbn [bind]. apply IH. }
  unfold taylor_expansion. cbn [to_variable e_var root]. unfold taylor_var. rewrite L.
  destruct (taylor_loop m x w _ 0 (sn_of_i64 1) e []) as [[coef res]| | |]; cbn [bind]; try reflexivity.
  cbn [ex_coef ex_residual ex_order]. repeat (split; [reflexivity|]).
  unfold expansion_to_string. cbn [ex_coef ex_residual ex_order ex_of ex_at].
  assert (num_aggregate m (e_sub (e_var x) at_) = num_aggregate m (e_sub (e_var x) w)) as B.
  { unfold e_sub. rewrite !agg_mk2 by reflexivity. rewrite E. reflexivity. }
  rewrite B. reflexivity.
Qed.
Print Assumptions c78_taylor.

(** With a subtraction in the part it is false: 0 - (-y) is simplified to -(-y), which is
    simplified further the second time. *)
Theorem c78_subtraction_refuted : exists e x v w a b y z, wf v /\ num_aggregate Debug v = Ok w /\
  substitute e (e_var x) v = ROk a /\ substitute e (e_var x) w = ROk b /\
  num_aggregate Debug a = Ok y /\ num_aggregate Debug b = Ok z /\ y <> z.
Proof.
  exists (e_var "x"), "x"%string, (e_sub e_zero (e_neg (e_var "y"))), (e_neg (e_neg (e_var "y"))).
  do 4 eexists. split; [wf_deep; constructor|].
  do 3 (split; [reflexivity|]). split; [vm_compute; reflexivity|]. split; [vm_compute; reflexivity|].
  discriminate.
Qed.
Print Assumptions c78_subtraction_refuted.

Example c78_witness : exists w a, num_aggregate Debug (e_add (e_of_i64 2) (e_of_i64 3)) = Ok w /\ w = e_of_i64 5 /\
  substitute (e_sin (e_mul (e_var "x") (e_var "y"))) (e_var "x") w = ROk a /\
  num_aggregate Debug (e_sin (e_mul (e_add (e_of_i64 2) (e_of_i64 3)) (e_var "y"))) = num_aggregate Debug a /\
  ~ has_op OSub (e_add (e_of_i64 2) (e_of_i64 3)).
Proof.
  do 2 eexists. split; [vm_compute; reflexivity|]. split; [reflexivity|]. split; [reflexivity|].
  split; [vm_compute; reflexivity|]. intros (op & c & D & S).
  unfold e_add, mk2, e_of_i64, e_num in S.
  repeat match goal with
  | H : subterm _ (Expr _ _) |- _ => inversion H; clear H; subst
  | H : In _ (_ :: _) |- _ => destruct H as [H|H]; [subst|]
  | H : In _ [] |- _ => destruct H end; discriminate.
Qed.

(** ** C79 *)
Fixpoint Zfact (k : nat) : Z := match k with O => 1 | S n => Z.of_nat (S n) * Zfact n end.
Lemma factZ_Zfact k : factZ k = Zfact k.
Proof. induction k as [|k IH]; [reflexivity|]. rewrite factZ_S, IH. reflexivity. Qed.

Lemma deriv_n_exp m x k : deriv_n m x k (e_exp (e_var x)) = Ok (e_exp (e_var x)).
Proof.
  induction k as [|k IH]; [reflexivity|]. cbn [deriv_n].
  assert (deriv m x (e_exp (e_var x)) = Ok (e_exp (e_var x))) as ->.
  { unfold e_exp. rewrite deriv_mk1 by reflexivity. unfold e_var. rewrite deriv_var, String.eqb_refl. reflexivity. }
  exact IH.
Qed.

Definition sin_d (x : string) (k : nat) : expr :=
  match (k mod 4)%nat with
  | 0%nat => e_sin (e_var x) | 1%nat => e_cos (e_var x)
  | 2%nat => e_neg (e_sin (e_var x)) | _ => e_neg (e_cos (e_var x)) end.

Lemma mod4_S k : ((S k) mod 4 = match k mod 4 with 0 => 1 | 1 => 2 | 2 => 3 | _ => 0 end)%nat.
Proof.
  pose proof (Nat.mod_upper_bound k 4 ltac:(discriminate)) as B.
  rewrite <- Nat.add_1_r, Nat.add_mod by discriminate. destruct (k mod 4)%nat as [|[|[|[|?]]]]; [reflexivity..|lia].
Qed.

Lemma deriv_sin_d m x k : deriv m x (sin_d x k) = Ok (sin_d x (S k)).
Proof.
  unfold sin_d. rewrite mod4_S. pose proof (Nat.mod_upper_bound k 4 ltac:(discriminate)) as B.
  destruct (k mod 4)%nat as [|[|[|[|?]]]]; [| | | |lia];
    unfold e_neg, e_sin, e_cos, e_var; repeat (rewrite deriv_mk1 by reflexivity); rewrite deriv_var, String.eqb_refl; reflexivity.
Qed.

Lemma deriv_n_sin_d m x n : forall k, deriv_n m x n (sin_d x k) = Ok (sin_d x (n + k)).
Proof.
  induction n as [|n IH]; intros k; [reflexivity|]. cbn [deriv_n]. rewrite deriv_sin_d. cbn [bind]. rewrite IH.
  f_equal. f_equal. lia.
Qed.

(** value of the k-th derivatives at a literal zero *)
Lemma zero_lit at_ : wf at_ -> is_zero at_ = true -> exists n, at_ = e_num n /\ sn_is_zero n = true.
Proof.
  intros W Z. inversion W; subst; try discriminate. eexists. split; [reflexivity|]. exact Z.
Qed.

Lemma exp_at m x at_ : wf at_ -> is_zero at_ = true ->
  num_aggregate m (subst x at_ (e_exp (e_var x))) = Ok (e_of_i64 1).
Proof.
  intros W Z. destruct (zero_lit _ W Z) as (n & -> & Hz). cbn. rewrite String.eqb_refl. cbn. rewrite Hz. reflexivity.
Qed.

Lemma sin_d_at m x at_ k : wf at_ -> is_zero at_ = true ->
  num_aggregate m (subst x at_ (sin_d x k)) = Ok (e_of_i64 (sin_num k)).
Proof.
  intros W Z. destruct (zero_lit _ W Z) as (n & -> & Hz). unfold sin_d, sin_num.
  pose proof (Nat.mod_upper_bound k 4 ltac:(discriminate)) as B.
  destruct (k mod 4)%nat as [|[|[|[|?]]]]; [| | | |lia]; cbn; rewrite String.eqb_refl; cbn; rewrite Hz; cbn;
    try reflexivity; destruct m; reflexivity.
Qed.

(** the closed divisions s / wrapped(k!) *)
Definition quotient_ok (m : mode) (s : Z) (k : nat) : bool :=
  let f := wrap_i64 (Zfact k) in
  match sn_div m (sn_of_i64 s) (sn_of_i64 f) with
  | Ok c => match exact_Q c with
            | Some p => Qeq_bool p (inject_Z s / inject_Z f) && negb (f =? 0)
            | None => (f =? 0) && negb (s =? 0) &&
                match nval c with Rational r => rden r =? 0 | _ => false end end
            || (s =? 0) && sn_is_zero c
  | _ => false
  end.

Lemma quotients_release : forallb (fun s => forallb (quotient_ok Release s) (seq 0 67)) [1; -1; 0] = true.
Proof. vm_compute. reflexivity. Qed.
Lemma quotients_debug : forallb (fun s => forallb (quotient_ok Debug s) (seq 0 21)) [1; -1; 0] = true.
Proof. vm_compute. reflexivity. Qed.

Lemma wrap_fact_66 k : (66 <= k)%nat -> wrap_i64 (Zfact k) = 0.
Proof.
  intros H. assert (exists c, Zfact k = c * two64) as (c & E).
  { induction H as [|k H (c & E)].
    - exists (Zfact 66 / two64). vm_compute. reflexivity.
    - exists (Z.of_nat (S k) * c). cbn [Zfact]. rewrite E. ring. }
  rewrite E. unfold wrap_i64. rewrite Z.add_comm, Z_mod_plus_full. reflexivity.
Qed.

Definition divided (m : mode) (num : nat -> Z) (l : list expr) (k : nat) : Prop :=
  exists c, nth_error l k = Some (e_num c) /\
    sn_div m (sn_of_i64 (num k)) (sn_of_i64 (wrap_i64 (Zfact k))) = Ok c.

Lemma coef_quot m e x at_ n t k d s : taylor_expansion m e (e_var x) at_ (Z.of_nat n) = Ok (ROk t) -> (k <= n)%nat ->
  deriv_n m x k e = Ok d -> num_aggregate m (subst x at_ d) = Ok (e_of_i64 (s k)) -> divided m s (ex_coef t) k.
Proof.
  intros H K D A. destruct (c31_shape _ _ _ _ _ _ H) as (_ & _ & _ & _ & _ & C).
  destruct (C k K) as (d' & s' & ck & E1 & E2 & E3 & E4). rewrite D in E1. injection E1 as <-.
  rewrite A in E2. injection E2 as <-. rewrite factZ_Zfact in E3. unfold e_div in E3.
  rewrite agg_mk2 in E3 by reflexivity. cbn [num_aggregate e_of_i64 e_num bind eval_rule] in E3.
  unfold div_eval_rule, eval2 in E3. cbn [pop_unwrap pop bind rev app] in E3. cbn in E3.
  apply bind_ok in E3 as (c & E3 & [= <-]). exists c. split; assumption.
Qed.

Lemma quotient_at m s k : m = Debug /\ (k <= 20)%nat \/ m = Release -> s = 1 \/ s = -1 \/ s = 0 -> quotient_ok m s k = true.
Proof.
  intros Hm Hs.
  assert (forall j, (j < 67)%nat -> quotient_ok Release s j = true) as R.
  { intros j Hj. pose proof quotients_release as Q. rewrite forallb_forall in Q.
    specialize (Q s ltac:(cbn; intuition auto)). rewrite forallb_forall in Q. apply Q. apply in_seq. lia. }
  destruct Hm as [(-> & K) | ->].
  - pose proof quotients_debug as Q. rewrite forallb_forall in Q.
    specialize (Q s ltac:(cbn; intuition auto)). rewrite forallb_forall in Q. apply Q. apply in_seq. lia.
  - destruct (Nat.lt_ge_cases k 67) as [L|L]; [exact (R k L)|].
    specialize (R 66%nat ltac:(lia)). unfold quotient_ok in *. rewrite wrap_fact_66 in * by lia. exact R.
Qed.

Lemma zero_div m w c : sn_div m (sn_of_i64 0) (sn_of_i64 (wrap_i64 w)) = Ok c -> c = sn_zero.
Proof.
  intros H. destruct (c10_annihilator m m (sn_of_i64 (wrap_i64 w)) (sn_of_i64 0)) as (_ & _ & E).
  - apply An_i64. apply wrap_in64.
  - apply An_i64. reflexivity.
  - reflexivity.
  - congruence.
Qed.

Lemma divided_value m num l k : m = Debug /\ (k <= 20)%nat \/ m = Release -> num k = 1 \/ num k = -1 \/ num k = 0 ->
  divided m num l k ->
  let f := wrap_i64 (factZ k) in
  (f <> 0 -> coefficient_is l k (inject_Z (num k) / inject_Z f)) /\
  (f = 0 -> num k <> 0 -> coefficient_undefined l k).
Proof.
  intros Hm Hs (c & E & D). cbv zeta. rewrite factZ_Zfact.
  pose proof (quotient_at m (num k) k Hm Hs) as Q. unfold quotient_ok in Q. rewrite D in Q.
  set (f := wrap_i64 (Zfact k)) in *. split.
  - intros F. destruct (exact_Q c) as [p|] eqn:X.
    + exists c, p. split; [exact E|]. split; [exact X|]. apply orb_prop in Q as [Q|Q].
      * apply andb_prop in Q as [Q _]. apply Qeq_bool_eq in Q. exact Q.
      * apply andb_prop in Q as [Q1 Q2]. apply Z.eqb_eq in Q1. rewrite Q1 in D. rewrite Q1.
        assert (c = sn_zero) as -> by exact (zero_div _ _ _ D). injection X as <-. 
        unfold Qdiv. setoid_replace (inject_Z 0) with 0%Q by reflexivity. ring.
    + exfalso. apply orb_prop in Q as [Q|Q].
      * apply andb_prop in Q as [Q _]. apply andb_prop in Q as [Q _]. apply Z.eqb_eq in Q. contradiction.
      * apply andb_prop in Q as [Q1 Q2]. apply Z.eqb_eq in Q1. rewrite Q1 in D.
        assert (c = sn_zero) as -> by exact (zero_div _ _ _ D). discriminate.
  - intros F N. exists c. split; [exact E|]. apply orb_prop in Q as [Q|Q].
    + destruct (exact_Q c).
      * apply andb_prop in Q as [_ Q]. rewrite F in Q. discriminate.
      * apply andb_prop in Q as [_ Q]. destruct (nval c) as [z|r|g] eqn:V; try discriminate.
        exists r. split; [exact V|]. apply Z.eqb_eq. exact Q.
    + apply andb_prop in Q as [Q _]. apply Z.eqb_eq in Q. contradiction.
Qed.

Lemma exp_divided m x at_ n t k : wf at_ -> is_zero at_ = true -> (k <= n)%nat ->
  taylor_expansion m (e_exp (e_var x)) (e_var x) at_ (Z.of_nat n) = Ok (ROk t) -> divided m exp_num (ex_coef t) k.
Proof.
  intros W Z K H. eapply coef_quot; [exact H|exact K|apply deriv_n_exp|]. apply exp_at; assumption.
Qed.
Lemma sin_divided m x at_ n t k : wf at_ -> is_zero at_ = true -> (k <= n)%nat ->
  taylor_expansion m (e_sin (e_var x)) (e_var x) at_ (Z.of_nat n) = Ok (ROk t) -> divided m sin_num (ex_coef t) k.
Proof.
  intros W Z K H. eapply coef_quot; [exact H|exact K| |].
  - change (e_sin (e_var x)) with (sin_d x 0). apply deriv_n_sin_d.
  - rewrite Nat.add_0_r. apply sin_d_at; assumption.
Qed.
Lemma cos_sin_num k : cos_num k = sin_num (k + 1).
Proof.
  unfold cos_num, sin_num. rewrite Nat.add_1_r, mod4_S.
  pose proof (Nat.mod_upper_bound k 4 ltac:(discriminate)) as B. destruct (k mod 4)%nat as [|[|[|[|?]]]]; [reflexivity..|lia].
Qed.
Lemma cos_divided m x at_ n t k : wf at_ -> is_zero at_ = true -> (k <= n)%nat ->
  taylor_expansion m (e_cos (e_var x)) (e_var x) at_ (Z.of_nat n) = Ok (ROk t) -> divided m cos_num (ex_coef t) k.
Proof.
  intros W Z K H. eapply coef_quot; [exact H|exact K| |].
  - change (e_cos (e_var x)) with (sin_d x 1). apply deriv_n_sin_d.
  - rewrite cos_sin_num. apply sin_d_at; assumption.
Qed.

Lemma nums k : (exp_num k = 1 \/ exp_num k = -1 \/ exp_num k = 0) /\
  (sin_num k = 1 \/ sin_num k = -1 \/ sin_num k = 0) /\ (cos_num k = 1 \/ cos_num k = -1 \/ cos_num k = 0).
Proof.
  unfold exp_num, sin_num, cos_num. repeat split; auto; destruct (k mod 4)%nat as [|[|[|[|?]]]]; auto.
Qed.

(** The coefficients up to index 20, exactly: 1/k!, and 0, 1/k!, 0, -1/k! for sin, and
    1/k!, 0, -1/k!, 0 for cos; at every literal zero, in both builds, whatever the order. *)
Theorem c79_series m x at_ n k t : m = Debug \/ m = Release -> wf at_ -> is_zero at_ = true -> (k <= n)%nat -> (k <= 20)%nat ->
  (taylor_expansion m (e_exp (e_var x)) (e_var x) at_ (Z.of_nat n) = Ok (ROk t) ->
     coefficient_is (ex_coef t) k (inject_Z (exp_num k) / inject_Z (factZ k))) /\
  (taylor_expansion m (e_sin (e_var x)) (e_var x) at_ (Z.of_nat n) = Ok (ROk t) ->
     coefficient_is (ex_coef t) k (inject_Z (sin_num k) / inject_Z (factZ k))) /\
  (taylor_expansion m (e_cos (e_var x)) (e_var x) at_ (Z.of_nat n) = Ok (ROk t) ->
     coefficient_is (ex_coef t) k (inject_Z (cos_num k) / inject_Z (factZ k))).
Proof.
  intros Hm W Z K K20. destruct (nums k) as (N1 & N2 & N3).
  assert (m = Debug /\ (k <= 20)%nat \/ m = Release) as Hm' by tauto.
  pose proof (factZ_pos k) as P. pose proof (c31_factorial k K20) as F.
  assert (wrap_i64 (factZ k) <> 0) as NZ by (rewrite F; lia).
  split; [|split]; intros H.
  - pose proof (divided_value _ _ _ _ Hm' N1 (exp_divided _ _ _ _ _ _ W Z K H)) as [V _].
    specialize (V NZ). rewrite F in V. exact V.
  - pose proof (divided_value _ _ _ _ Hm' N2 (sin_divided _ _ _ _ _ _ W Z K H)) as [V _].
    specialize (V NZ). rewrite F in V. exact V.
  - pose proof (divided_value _ _ _ _ Hm' N3 (cos_divided _ _ _ _ _ _ W Z K H)) as [V _].
    specialize (V NZ). rewrite F in V. exact V.
Qed.
Print Assumptions c79_series.

(** From index 21 on a release build divides by k! wrapped to 64 bits. *)
Theorem c79_release x at_ n k t : wf at_ -> is_zero at_ = true -> (k <= n)%nat ->
  let f := wrap_i64 (factZ k) in
  (taylor_expansion Release (e_exp (e_var x)) (e_var x) at_ (Z.of_nat n) = Ok (ROk t) ->
     (f <> 0 -> coefficient_is (ex_coef t) k (inject_Z (exp_num k) / inject_Z f)) /\
     (f = 0 -> coefficient_undefined (ex_coef t) k)) /\
  (taylor_expansion Release (e_sin (e_var x)) (e_var x) at_ (Z.of_nat n) = Ok (ROk t) ->
     (f <> 0 -> coefficient_is (ex_coef t) k (inject_Z (sin_num k) / inject_Z f)) /\
     (f = 0 -> sin_num k <> 0 -> coefficient_undefined (ex_coef t) k)) /\
  (taylor_expansion Release (e_cos (e_var x)) (e_var x) at_ (Z.of_nat n) = Ok (ROk t) ->
     (f <> 0 -> coefficient_is (ex_coef t) k (inject_Z (cos_num k) / inject_Z f)) /\
     (f = 0 -> cos_num k <> 0 -> coefficient_undefined (ex_coef t) k)).
Proof.
  intros W Z K. cbv zeta. destruct (nums k) as (N1 & N2 & N3).
  assert (Release = Debug /\ (k <= 20)%nat \/ Release = Release) as Hm' by (right; reflexivity).
  split; [|split]; intros H.
  - pose proof (divided_value _ _ _ _ Hm' N1 (exp_divided _ _ _ _ _ _ W Z K H)) as [V U].
    split; [exact V|]. intros F. apply U; [exact F|discriminate].
  - exact (divided_value _ _ _ _ Hm' N2 (sin_divided _ _ _ _ _ _ W Z K H)).
  - exact (divided_value _ _ _ _ Hm' N3 (cos_divided _ _ _ _ _ _ W Z K H)).
Qed.
Print Assumptions c79_release.

(** Hence in release builds the series of exp is silently wrong: every expansion of order 21 or
    more has a negative coefficient 21, and from index 66 on the coefficients are n/0. *)
Theorem c79_release_refuted x n : (21 <= n)%nat ->
  exists t q, taylor_expansion Release (e_exp (e_var x)) (e_var x) e_zero (Z.of_nat n) = Ok (ROk t) /\
    coefficient_is (ex_coef t) 21 q /\ (q < 0)%Q /\
    (forall k, (66 <= k <= n)%nat -> coefficient_undefined (ex_coef t) k).
Proof.
  intros N. assert (wf e_zero) as W by apply wf_zero.
  destruct (c31_release_returns (e_exp (e_var x)) x e_zero (Z.of_nat n) ltac:(wf_deep; constructor) W) as (t & H).
  exists t, (inject_Z 1 / inject_Z (wrap_i64 (factZ 21)))%Q. split; [exact H|].
  destruct (c79_release x e_zero n 21 t W eq_refl N) as (A & _). specialize (A H).
  assert (wrap_i64 (factZ 21) = -4249290049419214848) as E by (rewrite factZ_Zfact; vm_compute; reflexivity).
  split; [|split].
  - apply A. rewrite E. discriminate.
  - rewrite E. reflexivity.
  - intros k (K1 & K2). destruct (c79_release x e_zero n k t W eq_refl K2) as (B & _). specialize (B H). apply B.
    rewrite factZ_Zfact. apply wrap_fact_66. exact K1.
Qed.
Print Assumptions c79_release_refuted.

(** Up to order 20 the expansions exist in both builds. *)
Lemma loop_returns m x at_ (D : nat -> expr) num : m = Debug -> (forall k, deriv m x (D k) = Ok (D (S k))) ->
  (forall k, num_aggregate m (subst x at_ (D k)) = Ok (e_of_i64 (num k))) ->
  (forall k, num k = 1 \/ num k = -1 \/ num k = 0) ->
  forall n k c, (k + n <= 21)%nat ->
  exists p, taylor_loop m x at_ n (Z.of_nat k) (sn_of_i64 (Zfact (pred k))) (D k) c = Ok p.
Proof.
  intros Hm HD HA HN. induction n as [|n IH]; intros k c K; [eexists; reflexivity|].
  cbn [taylor_loop].
  assert (exists kn, sn_of_u64 m (Z.max (Z.of_nat k) 1) = Ok kn /\
    sn_mul m (sn_of_i64 (Zfact (pred k))) kn = Ok (sn_of_i64 (Zfact k)) /\ wrap_i64 (Zfact k) = Zfact k) as (kn & -> & E & F).
  { subst m. clear - K. assert (k <= 20)%nat as L by lia. clear K.
    do 21 (destruct k as [|k]; [eexists; split; [vm_compute; reflexivity|split; vm_compute; reflexivity]|]). lia. }
  cbn [bind]. rewrite E. cbn [bind]. rewrite HA. cbn [bind].
  pose proof (quotient_at m (num k) k ltac:(left; split; [exact Hm|lia]) (HN k)) as Q. unfold quotient_ok in Q. rewrite F in Q.
  destruct (sn_div m (sn_of_i64 (num k)) (sn_of_i64 (Zfact k))) as [v| | |] eqn:V; try discriminate.
  assert (num_aggregate m (e_div (e_of_i64 (num k)) (e_num (sn_of_i64 (Zfact k)))) = Ok (e_num v)) as ->.
  { unfold e_div. rewrite agg_mk2 by reflexivity. cbn. rewrite V. reflexivity. }
  cbn [bind]. rewrite HD. cbn [bind]. replace (Z.of_nat k + 1) with (Z.of_nat (S k)) by lia.
  apply (IH (S k)). lia.
Qed.

Theorem c79_returns m x at_ n : m = Debug \/ m = Release -> wf at_ -> is_zero at_ = true -> (n <= 20)%nat ->
  (exists t, taylor_expansion m (e_exp (e_var x)) (e_var x) at_ (Z.of_nat n) = Ok (ROk t)) /\
  (exists t, taylor_expansion m (e_sin (e_var x)) (e_var x) at_ (Z.of_nat n) = Ok (ROk t)) /\
  (exists t, taylor_expansion m (e_cos (e_var x)) (e_var x) at_ (Z.of_nat n) = Ok (ROk t)).
Proof.
  intros [-> | ->] W Z N.
  2:{ split; [|split]; apply c31_release_returns; try assumption; wf_deep; constructor. }
  assert (forall D num, (forall k, deriv Debug x (D k) = Ok (D (S k))) ->
    (forall k, num_aggregate Debug (subst x at_ (D k)) = Ok (e_of_i64 (num k))) ->
    (forall k, num k = 1 \/ num k = -1 \/ num k = 0) ->
    exists t, taylor_expansion Debug (D 0%nat) (e_var x) at_ (Z.of_nat n) = Ok (ROk t)) as L.
  { intros D num HD HA HN. unfold taylor_expansion. cbn [to_variable e_var root]. unfold taylor_var.
    replace (Z.to_nat (Z.of_nat n + 1)) with (S n) by lia.
    destruct (loop_returns Debug x at_ D num eq_refl HD HA HN (S n) 0%nat [] ltac:(lia)) as ([cs r] & E).
    change (Z.of_nat 0) with 0 in E. change (Zfact (pred 0)) with 1 in E. rewrite E. cbn [bind]. eexists. reflexivity. }
  split; [|split].
  - apply (L (fun _ => e_exp (e_var x)) exp_num).
    + intros k. cbn beta. pose proof (deriv_n_exp Debug x 1) as E. cbn [deriv_n] in E. apply bind_ok in E as (d & E & F). injection F as ->. exact E.
    + intros k. cbn beta. apply exp_at; assumption.
    + intros k. apply nums.
  - apply (L (sin_d x) sin_num).
    + intros k. apply deriv_sin_d.
    + intros k. apply sin_d_at; assumption.
    + intros k. apply nums.
  - apply (L (fun k => sin_d x (S k)) cos_num).
    + intros k. apply deriv_sin_d.
    + intros k. rewrite cos_sin_num, Nat.add_1_r. apply sin_d_at; assumption.
    + intros k. apply nums.
Qed.
Print Assumptions c79_returns.

Example c79_witness : exists t, taylor_expansion Debug (e_sin (e_var "x")) (e_var "x") e_zero 20 = Ok (ROk t) /\
  coefficient_is (ex_coef t) 7 (inject_Z (-1) / inject_Z 5040).
Proof.
  destruct (c79_returns Debug "x" e_zero 20 (or_introl eq_refl) wf_zero eq_refl (le_n _)) as (_ & (t & H) & _).
  exists t. split; [exact H|].
  destruct (c79_series Debug "x" e_zero 20 7 t (or_introl eq_refl) wf_zero eq_refl ltac:(lia) ltac:(lia)) as (_ & S7 & _).
  exact (S7 H).
Qed.
