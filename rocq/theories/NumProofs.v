(** * NumProofs: lemmas for val_holder.rs and smart_num/mod.rs *)
From Coq Require Import ZArith QArith List Bool Lia.
From Coq Require Import Floats.SpecFloat.
From Verif Require Import Base Float Rational SmartNum Ast Spec BaseProofs RationalProofs.
Open Scope Z_scope.
Open Scope res_scope.

(** ** the number invariant *)
Definition val_winv (v : val) : Prop :=
  match v with
  | Integer z => in_i64 z = true
  | Rational r => rat_inv r
  | Real _ => True
  end.

Lemma val_inv_w v : val_inv v -> val_winv v.
Proof. destruct v; simpl; tauto. Qed.

Lemma wrap_val_ok v : val_winv v -> num_ok (wrap_val v).
Proof.
  intros H. unfold wrap_val. destruct (val_is_zero v) eqn:E0; [|destruct (val_is_one v) eqn:E1].
  - split; reflexivity.
  - split; reflexivity.
  - split; [|split; assumption]. destruct v as [z|r|f]; simpl in *; try tauto.
    split; [assumption|]. intros Hs. destruct H as (Hr & _).
    destruct Hr as [?|[?|[_ Hn]]]; lia.
Qed.

Lemma sn_of_val_ok v : val_inv v -> num_ok (sn_of_val v).
Proof.
  intros H. unfold sn_of_val, num_ok. cbn [nval ntag]. split; [assumption|].
  destruct (val_is_one v) eqn:E1; [reflexivity|].
  destruct (val_is_zero v) eqn:E0; [reflexivity|]. tauto.
Qed.

Lemma ovf_i64_in64 m z v : ovf_i64 m z = Ok v -> in_i64 v = true.
Proof. intros H. apply in_i64_iff. eapply ovf_i64_ok; eauto. Qed.

Ltac inv_all H := repeat (inv_bind H); try (injection H as <-).

Lemma val_neg_inv m a v : val_inv a -> val_neg m a = Ok v -> val_winv v.
Proof.
  intros Ha H. destruct a; simpl in *; inv_all H; simpl.
  - eapply ovf_i64_in64; eauto.
  - eapply rat_neg_inv; [|eassumption]. tauto.
  - exact I.
Qed.

Lemma val_add_inv m a b v : val_add m a b = Ok v -> val_winv v.
Proof.
  intros H. destruct a, b; simpl in *; inv_all H; simpl; try exact I;
    try (eapply ovf_i64_in64; eassumption); try (eapply rat_add_inv; eassumption).
Qed.
Lemma val_sub_inv m a b v : val_sub m a b = Ok v -> val_winv v.
Proof.
  intros H. destruct a, b; simpl in *; inv_all H; simpl; try exact I;
    try (eapply ovf_i64_in64; eassumption); try (eapply rat_sub_inv; eassumption).
Qed.

Lemma rat_of_i64_rinv m v r : in_i64 v = true -> rat_of_i64 m v = Ok r ->
  rat_inv r /\ (rsign r = 0 -> rden r = 0).
Proof.
  intros Hv H. apply rat_of_i64_inv in H as (H1 & H2 & H3 & H4); [|assumption].
  split; [apply rat_valid_inv, H1|]. rewrite H4. destruct (Z.eqb_spec v 0); lia.
Qed.

Lemma val_mul_inv m a b v : val_inv a -> val_inv b -> val_mul m a b = Ok v -> val_winv v.
Proof.
  intros Ha Hb' H. unfold val_mul in H. destruct (val_is_zero a || val_is_zero b).
  - injection H as <-. reflexivity.
  - destruct a, b; simpl in *; inv_all H; simpl; try exact I;
    try (eapply ovf_i64_in64; eassumption);
    repeat match goal with
    | Hr : rat_of_i64 _ _ = Ok _ |- _ => apply rat_of_i64_rinv in Hr; [|assumption]
    end; eapply rat_mul_inv; try eassumption; tauto.
Qed.
Lemma val_div_inv m a b v : val_inv a -> val_inv b -> val_div m a b = Ok v -> val_winv v.
Proof.
  intros Ha Hb' H. unfold val_div in H. destruct (val_is_zero a).
  - injection H as <-. reflexivity.
  - destruct a, b; simpl in *; inv_all H; simpl; try exact I;
    repeat match goal with
    | Hr : rat_of_i64 _ _ = Ok _ |- _ => apply rat_of_i64_rinv in Hr; [|assumption]
    end; eapply rat_div_inv; try eassumption; tauto.
Qed.

Lemma guard_ok m b r v : guard m b r = Ok v -> r = Ok v /\ (m = Strict -> b = false).
Proof.
  unfold guard. destruct m, b; simpl; intros H; try discriminate; split; congruence.
Qed.

Lemma sn_neg_ok m x z : num_ok x -> sn_neg m x = Ok z -> num_ok z.
Proof.
  intros [Hx _] H. unfold sn_neg in H. inv_all H. apply guard_ok in Hb as [Hb _].
  apply wrap_val_ok. eapply val_neg_inv; eassumption.
Qed.
Lemma sn_add_ok m x y z : num_ok x -> num_ok y -> sn_add m x y = Ok z -> num_ok z.
Proof.
  intros Hx Hy H. unfold sn_add in H. destruct (sn_is_zero x); [congruence|].
  destruct (sn_is_zero y); [congruence|]. inv_all H. apply guard_ok in Hb as [Hb _].
  apply wrap_val_ok. eapply val_add_inv; eassumption.
Qed.
Lemma sn_sub_ok m x y z : num_ok x -> num_ok y -> sn_sub m x y = Ok z -> num_ok z.
Proof.
  intros Hx Hy H. unfold sn_sub in H. destruct (sn_is_zero x); [eapply sn_neg_ok; eauto|].
  destruct (sn_is_zero y); [congruence|]. inv_all H. apply guard_ok in Hb as [Hb _].
  apply wrap_val_ok. eapply val_sub_inv; eassumption.
Qed.
Lemma sn_mul_ok m x y z : num_ok x -> num_ok y -> sn_mul m x y = Ok z -> num_ok z.
Proof.
  intros Hx Hy H. unfold sn_mul in H. destruct (sn_is_one x); [congruence|].
  destruct (sn_is_one y); [congruence|]. inv_all H. apply guard_ok in Hb as [Hb _].
  apply wrap_val_ok. eapply val_mul_inv; try eassumption; [apply Hx|apply Hy].
Qed.
Lemma sn_div_ok m x y z : num_ok x -> num_ok y -> sn_div m x y = Ok z -> num_ok z.
Proof.
  intros Hx Hy H. unfold sn_div in H. inv_all H. apply guard_ok in Hb as [Hb _].
  apply wrap_val_ok. eapply val_div_inv; try eassumption; [apply Hx|apply Hy].
Qed.

Lemma sn_of_i64_ok z : in_i64 z = true -> num_ok (sn_of_i64 z).
Proof. intros H. apply sn_of_val_ok. exact H. Qed.
Lemma sn_of_u64_ok m z x : sn_of_u64 m z = Ok x -> num_ok x.
Proof.
  unfold sn_of_u64, val_of_u64. intros H. inv_all H. inv_all Hb.
  apply sn_of_val_ok. simpl. apply in_i64_iff. eapply cast_i64_ok; eauto.
Qed.
Lemma sn_new_rational_ok m s n d x : in_i64 s = true -> in_u64 n = true -> in_u64 d = true ->
  sn_new_rational m s n d = Ok (Some x) -> num_ok x.
Proof.
  intros Hs Hn Hd H. unfold sn_new_rational, val_new_rational in H.
  rewrite rat_new_spec in H by assumption.
  apply in_u64_iff in Hn, Hd.
  destruct ((s =? - two63) && _); [destruct m; discriminate|]. cbn [bind] in H.
  destruct ((s =? 1) || (s =? -1)) eqn:E; cbn [andb negb bind] in H; [|discriminate].
  destruct (Z.eqb_spec d 0) as [->|Hd0]; cbn [andb negb bind] in H; [discriminate|].
  injection H as <-. unfold num_ok. cbn [nval ntag].
  split.
  - simpl. unfold rat_inv. cbn [rsign rnum rden]. lia.
  - cbn [val_is_zero val_is_one rsign rnum rden].
    destruct ((n =? 0) && negb (d =? 0)) eqn:E0; [reflexivity|].
    destruct ((s =? 1) && (n =? d) && negb (d =? 0)) eqn:E1; [reflexivity|]. tauto.
Qed.

Lemma api_number_ok m x : api_number m x -> num_ok x.
Proof.
  induction 1; eauto using sn_of_i64_ok, sn_of_u64_ok, sn_new_rational_ok, sn_neg_ok, sn_add_ok,
    sn_sub_ok, sn_mul_ok, sn_div_ok.
  - apply sn_of_val_ok. exact I.
  - apply sn_of_val_ok. exact I.
  - split; reflexivity.
  - split; reflexivity.
  - split; reflexivity.
  - split; reflexivity.
Qed.

(** ** tags tell the truth *)
Lemma val_is_zero_Q v : val_inv v -> val_is_zero v = true <->
  exists q, match v with Real _ => None | _ => val_Q v end = Some q /\ (q == 0)%Q.
Proof.
  intros H. destruct v as [z|r|f]; simpl.
  - rewrite Z.eqb_eq. split.
    + intros ->. exists (inject_Z 0). split; reflexivity.
    + intros (q & [= <-] & E). unfold Qeq in E. simpl in E. lia.
  - destruct H as ((Hs & Hn & Hd) & H0). rewrite andb_true_iff, Z.eqb_eq, negb_true_iff.
    split.
    + intros [E1 E2]. rewrite E2. exists (ratQ r). split; [reflexivity|].
      unfold ratQ, Qeq. simpl. lia.
    + destruct (Z.eqb_spec (rden r) 0) as [Ed|Ed]; [intros (q & [=] & _)|].
      intros (q & [= <-] & E). unfold ratQ, Qeq in E. simpl in E.
      split; [|reflexivity]. nia.
  - split; [discriminate|]. intros (q & [=] & _).
Qed.
Lemma val_is_one_Q v : val_inv v -> val_is_one v = true <->
  exists q, match v with Real _ => None | _ => val_Q v end = Some q /\ (q == 1)%Q.
Proof.
  intros H. destruct v as [z|r|f]; simpl.
  - rewrite Z.eqb_eq. split.
    + intros ->. exists (inject_Z 1). split; reflexivity.
    + intros (q & [= <-] & E). unfold Qeq in E. simpl in E. lia.
  - destruct H as ((Hs & Hn & Hd) & H0).
    rewrite !andb_true_iff, !Z.eqb_eq, negb_true_iff.
    split.
    + intros [[E1 E2] E3]. rewrite E3. exists (ratQ r). split; [reflexivity|].
      apply Z.eqb_neq in E3. unfold ratQ, Qeq. cbn [Qnum Qden]. rewrite Z2Pos.id by lia. lia.
    + destruct (Z.eqb_spec (rden r) 0) as [Ed|Ed]; [intros (q & [=] & _)|].
      intros (q & [= <-] & E). unfold ratQ, Qeq in E. cbn [Qnum Qden] in E.
      rewrite Z2Pos.id in E by lia.
      repeat split; nia.
  - split; [discriminate|]. intros (q & [=] & _).
Qed.

Lemma zero_not_one v : val_is_zero v = true -> val_is_one v = true -> False.
Proof.
  destruct v as [z|r|f]; simpl; try discriminate; rewrite ?andb_true_iff, ?Z.eqb_eq;
    [lia|]. rewrite negb_true_iff, Z.eqb_neq. lia.
Qed.

Lemma is_zero_val x : num_ok x -> sn_is_zero x = val_is_zero (nval x).
Proof.
  intros [Hi Ht]. unfold sn_is_zero. destruct (ntag x) eqn:E; simpl.
  - symmetry; assumption.
  - destruct (val_is_zero (nval x)) eqn:E0; [|reflexivity].
    exfalso; eapply zero_not_one; eauto.
  - rewrite Ht. reflexivity.
  - rewrite Ht. reflexivity.
  - symmetry; apply Ht.
Qed.
Lemma is_one_val x : num_ok x -> sn_is_one x = val_is_one (nval x).
Proof.
  intros [Hi Ht]. unfold sn_is_one. destruct (ntag x) eqn:E; simpl.
  - destruct (val_is_one (nval x)) eqn:E0; [|reflexivity].
    exfalso; eapply zero_not_one; eauto.
  - symmetry; assumption.
  - rewrite Ht. reflexivity.
  - rewrite Ht. reflexivity.
  - symmetry; apply Ht.
Qed.

Lemma exact_Q_match x : exact_Q x = match nval x with Real _ => None | v => val_Q v end.
Proof. reflexivity. Qed.

Lemma is_zero_exact x : num_ok x ->
  (sn_is_zero x = true <-> exists q, exact_Q x = Some q /\ (q == 0)%Q).
Proof.
  intros H. rewrite is_zero_val by assumption. rewrite (val_is_zero_Q (nval x)) by apply H.
  unfold exact_Q. destruct (nval x); tauto.
Qed.
Lemma is_one_exact x : num_ok x ->
  (sn_is_one x = true <-> exists q, exact_Q x = Some q /\ (q == 1)%Q).
Proof.
  intros H. rewrite is_one_val by assumption. rewrite (val_is_one_Q (nval x)) by apply H.
  unfold exact_Q. destruct (nval x); tauto.
Qed.
Lemma is_pi_eq x : num_ok x -> (sn_is_pi x = true <-> x = sn_pi).
Proof.
  intros [Hi Ht]. destruct x as [v t]. unfold sn_is_pi. cbn [ntag nval] in *.
  split.
  - destruct t; try discriminate. intros _. subst. reflexivity.
  - intros [= -> ->]. reflexivity.
Qed.
Lemma is_e_eq x : num_ok x -> (sn_is_e x = true <-> x = sn_e).
Proof.
  intros [Hi Ht]. destruct x as [v t]. unfold sn_is_e. cbn [ntag nval] in *.
  split.
  - destruct t; try discriminate. intros _. subst. reflexivity.
  - intros [= -> ->]. reflexivity.
Qed.

(** ** integers *)
Definition int_outcome (m : mode) (z : Z) (r : res snum) : Prop :=
  if in_i64 z then r = Ok (sn_of_i64 z)
  else match m with
       | Debug => r = Panic
       | Release => exists v, in_i64 v = true /\ (v - z) mod two64 = 0 /\ r = Ok (sn_of_i64 v)
       | Strict => r = Trap
       end.

Lemma wrap_i64_mod z : (wrap_i64 z - z) mod two64 = 0.
Proof.
  unfold wrap_i64. pose proof (Z.div_mod (z + two63) two64 ltac:(discriminate)) as E.
  replace ((z + two63) mod two64 - two63 - z) with (- ((z + two63) / two64) * two64).
  - apply Z.mod_mul. discriminate.
  - lia.
Qed.

Lemma wrap_val_int z : wrap_val (Integer z) = sn_of_i64 z.
Proof.
  unfold wrap_val, sn_of_i64, sn_of_val, val_of_i64. simpl.
  destruct (Z.eqb_spec z 0) as [->|]; [reflexivity|].
  destruct (Z.eqb_spec z 1) as [->|]; reflexivity.
Qed.

Lemma int_outcome_ovf m z :
  int_outcome m z (let* v := ovf_i64 m z in Ok (wrap_val (Integer v))).
Proof.
  unfold int_outcome, ovf_i64. destruct (in_i64 z) eqn:E; simpl.
  - rewrite wrap_val_int. reflexivity.
  - destruct m; try reflexivity. cbn [bind]. exists (wrap_i64 z).
    rewrite wrap_val_int. repeat split.
    + apply in_i64_iff, wrap_i64_range.
    + apply wrap_i64_mod.
Qed.

Lemma sn_is_zero_int z : sn_is_zero (sn_of_i64 z) = (z =? 0).
Proof.
  unfold sn_is_zero, sn_of_i64, sn_of_val. simpl.
  destruct (Z.eqb_spec z 1) as [->|]; [reflexivity|]. destruct (z =? 0); reflexivity.
Qed.
Lemma sn_is_one_int z : sn_is_one (sn_of_i64 z) = (z =? 1).
Proof.
  unfold sn_is_one, sn_of_i64, sn_of_val. simpl.
  destruct (Z.eqb_spec z 1) as [->|]; [reflexivity|]. destruct (z =? 0); reflexivity.
Qed.
Lemma approx_int z : approx (sn_of_i64 z) = false.
Proof.
  unfold approx, sn_is_pi, sn_is_e, sn_of_i64, sn_of_val. simpl.
  destruct (z =? 1); [reflexivity|]. destruct (z =? 0); reflexivity.
Qed.

Lemma guard_false m r : guard m false r = r.
Proof. unfold guard. rewrite andb_false_r. reflexivity. Qed.

Lemma int_outcome_in m z r : in_i64 z = true -> r = Ok (sn_of_i64 z) -> int_outcome m z r.
Proof. intros E ->. unfold int_outcome. rewrite E. reflexivity. Qed.

Lemma sn_neg_int m a : int_outcome m (- a) (sn_neg m (sn_of_i64 a)).
Proof.
  unfold sn_neg. rewrite approx_int, guard_false. cbn [nval sn_of_i64 sn_of_val val_of_i64 val_neg].
  pose proof (int_outcome_ovf m (- a)) as H. unfold i64_neg.
  destruct (ovf_i64 m (- a)); exact H.
Qed.
Lemma sn_add_int m a b : in_i64 a = true -> in_i64 b = true ->
  int_outcome m (a + b) (sn_add m (sn_of_i64 a) (sn_of_i64 b)).
Proof.
  intros Ha Hb. unfold sn_add. rewrite !sn_is_zero_int.
  destruct (Z.eqb_spec a 0) as [->|]; [apply int_outcome_in; [assumption|reflexivity]|].
  destruct (Z.eqb_spec b 0) as [->|].
  { rewrite Z.add_0_r. apply int_outcome_in; [assumption|reflexivity]. }
  rewrite !approx_int, guard_false. cbn [nval sn_of_i64 sn_of_val val_of_i64 val_add].
  pose proof (int_outcome_ovf m (a + b)) as H. unfold i64_add.
  destruct (ovf_i64 m (a + b)); exact H.
Qed.
Lemma sn_sub_int m a b : in_i64 a = true -> in_i64 b = true ->
  int_outcome m (a - b) (sn_sub m (sn_of_i64 a) (sn_of_i64 b)).
Proof.
  intros Ha Hb. unfold sn_sub. rewrite !sn_is_zero_int.
  destruct (Z.eqb_spec a 0) as [->|]; [apply sn_neg_int|].
  destruct (Z.eqb_spec b 0) as [->|].
  { rewrite Z.sub_0_r. apply int_outcome_in; [assumption|reflexivity]. }
  rewrite !approx_int, guard_false. cbn [nval sn_of_i64 sn_of_val val_of_i64 val_sub].
  pose proof (int_outcome_ovf m (a - b)) as H. unfold i64_sub.
  destruct (ovf_i64 m (a - b)); exact H.
Qed.
Lemma sn_mul_int m a b : in_i64 a = true -> in_i64 b = true ->
  int_outcome m (a * b) (sn_mul m (sn_of_i64 a) (sn_of_i64 b)).
Proof.
  intros Ha Hb. unfold sn_mul. rewrite !sn_is_one_int.
  destruct (Z.eqb_spec a 1) as [->|].
  { rewrite Z.mul_1_l. apply int_outcome_in; [assumption|reflexivity]. }
  destruct (Z.eqb_spec b 1) as [->|].
  { rewrite Z.mul_1_r. apply int_outcome_in; [assumption|reflexivity]. }
  rewrite !approx_int, guard_false. cbn [nval sn_of_i64 sn_of_val val_of_i64].
  unfold val_mul, val_of_i64. cbn [val_is_zero].
  destruct ((a =? 0) || (b =? 0)) eqn:E.
  - assert (a * b = 0) as -> by lia. apply int_outcome_in; reflexivity.
  - pose proof (int_outcome_ovf m (a * b)) as H. unfold i64_mul.
    destruct (ovf_i64 m (a * b)); exact H.
Qed.
