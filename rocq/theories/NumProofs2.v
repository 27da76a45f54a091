(** * NumProofs2: exactness, identities, division by zero, conversions, monotonicity *)
From Coq Require Import ZArith QArith List Bool Lia.
From Coq Require Import Floats.SpecFloat.
From Verif Require Import Base Float Rational SmartNum Ast Spec BaseProofs RationalProofs NumProofs.
Open Scope Z_scope.
Open Scope res_scope.

(** ** exact arithmetic when nothing is lost *)
Lemma exact1_ok q r : exact1 q r = true <-> exists c, f_val r = Some c /\ (c == q)%Q.
Proof.
  unfold exact1. destruct (f_val r) as [c|].
  - rewrite Qeq_bool_iff. split; [eauto|]. intros (c' & [= <-] & H). exact H.
  - split; [discriminate|]. intros (c & [=] & _).
Qed.

Lemma trap_unless_strict b r v : trap_unless Strict b r = Ok v -> b = true /\ v = r.
Proof. unfold trap_unless. destruct b; simpl; intros H; [split; congruence|discriminate]. Qed.

Lemma exact2_ok op x y r : exact2 op x y r = true <->
  exists a b c, f_val x = Some a /\ f_val y = Some b /\ f_val r = Some c /\ (c == op a b)%Q.
Proof.
  unfold exact2. destruct (f_val x) as [a|], (f_val y) as [b|].
  - rewrite exact1_ok. split.
    + intros (c & H1 & H2). exists a, b, c. auto.
    + intros (a' & b' & c & [= <-] & [= <-] & H1 & H2). eauto.
  - split; [discriminate|]. intros (a' & b' & c & [= <-] & [=] & _).
  - split; [discriminate|]. intros (a' & b' & c & [=] & _).
  - split; [discriminate|]. intros (a' & b' & c & [=] & _).
Qed.

Lemma m_of_Z_strict z r : m_of_Z Strict z = Ok r ->
  exists c, f_val r = Some c /\ (c == inject_Z z)%Q.
Proof. intros H. apply trap_unless_strict in H as [H ->]. apply exact1_ok, H. Qed.

Ltac strict_op H :=
  apply trap_unless_strict in H; destruct H as [H ->]; apply exact2_ok in H.

Lemma m_op_strict (mop : mode -> f64 -> f64 -> res f64) fop op
  (E : forall x y, mop Strict x y = trap_unless Strict (exact2 op x y (fop x y)) (fop x y)) x y r :
  mop Strict x y = Ok r ->
  exists a b c, f_val x = Some a /\ f_val y = Some b /\ f_val r = Some c /\ (c == op a b)%Q.
Proof. rewrite E. intros H. apply trap_unless_strict in H as [H ->]. apply exact2_ok, H. Qed.
Definition m_add_strict := m_op_strict m_add f_add Qplus (fun _ _ => eq_refl).
Definition m_sub_strict := m_op_strict m_sub f_sub Qminus (fun _ _ => eq_refl).
Definition m_mul_strict := m_op_strict m_mul f_mul Qmult (fun _ _ => eq_refl).
Definition m_div_strict := m_op_strict m_div f_div Qdiv (fun _ _ => eq_refl).

Lemma ratQ_div r : 0 < rden r ->
  (ratQ r == inject_Z (rsign r) * inject_Z (rnum r) / inject_Z (rden r))%Q.
Proof.
  intros H. assert (~ inject_Z (rden r) == 0)%Q as Hd by (unfold Qeq; simpl; lia).
  apply Qmult_inj_r with (z := inject_Z (rden r)); [assumption|].
  unfold Qdiv. rewrite <- Qmult_assoc, (Qmult_comm (/ _)), Qmult_inv_r, Qmult_1_r by assumption.
  unfold ratQ, Qeq, Qmult, inject_Z. cbn [Qnum Qden].
  rewrite !Pos2Z.inj_mul, !Z2Pos.id by lia. ring.
Qed.

Lemma rat_to_f64_strict r f : rat_valid r -> rat_to_f64 Strict r = Ok f ->
  exists c, f_val f = Some c /\ (c == ratQ r)%Q.
Proof.
  intros (_ & _ & Hd) H. unfold rat_to_f64 in H. do 4 inv_bind H.
  apply m_of_Z_strict in Hb as (q1 & F1 & E1), Hb0 as (q2 & F2 & E2), Hb2 as (q3 & F3 & E3).
  apply m_mul_strict in Hb1 as (a' & b' & c' & G1 & G2 & G3 & E4).
  apply m_div_strict in H as (a'' & b'' & c'' & K1 & K2 & K3 & E5).
  exists c''. split; [assumption|]. rewrite E5, ratQ_div by lia.
  rewrite F1 in G1. rewrite F2 in G2. rewrite G3 in K1. rewrite F3 in K2.
  injection G1 as <-. injection G2 as <-. injection K1 as <-. injection K2 as <-.
  rewrite E4, E1, E2, E3. reflexivity.
Qed.

Lemma val_Q_rat r q : val_inv (Rational r) -> val_Q (Rational r) = Some q ->
  rat_valid r /\ q = ratQ r.
Proof.
  intros [H _]. simpl. destruct (Z.eqb_spec (rden r) 0); [discriminate|].
  intros [= <-]. split; [apply rat_inv_valid; assumption|reflexivity].
Qed.

Lemma val_Q_valid r : rat_valid r -> val_Q (Rational r) = Some (ratQ r).
Proof. intros (_ & _ & H). simpl. destruct (Z.eqb_spec (rden r) 0); [lia|reflexivity]. Qed.

Definition val_exact (op : Q -> Q -> Q) (a b v : val) : Prop :=
  forall p q, val_Q a = Some p -> val_Q b = Some q ->
  exists r, val_Q v = Some r /\ (r == op p q)%Q.

(* normalise the hypotheses of one case *)
Ltac num_case :=
  repeat match goal with
  | H : rat_of_i64 Strict ?z = Ok _ |- _ =>
      let H1 := fresh "Hv" in let H2 := fresh "Hi" in
      assert (in_i64 z = true) as H2 by assumption;
      pose proof (rat_of_i64_inv _ _ _ H2 H) as (H1 & _);
      apply (rat_of_i64_Q _ _ _ H2) in H
  | H : m_of_Z Strict _ = Ok _ |- _ => apply m_of_Z_strict in H as (? & ? & ?)
  | H : rat_to_f64 Strict _ = Ok _ |- _ =>
      apply rat_to_f64_strict in H as (? & ? & ?); [|assumption]
  | H : val_Q (Rational _) = Some _ |- _ =>
      apply val_Q_rat in H as [? ->]; [|assumption]
  | H : val_Q (Integer _) = Some _ |- _ => simpl in H; injection H as <-
  | H : val_Q (Real _) = Some _ |- _ => simpl in H
  | H1 : f_val ?f = Some _, H2 : f_val ?f = Some _ |- _ =>
      rewrite H1 in H2; injection H2 as <-
  end.

Lemma val_add_strict a b v : val_inv a -> val_inv b -> val_add Strict a b = Ok v ->
  val_exact Qplus a b v.
Proof.
  intros Ha Hb' H p q Hp Hq.
  destruct a as [i|i|i], b as [j|j|j]; cbn [val_add] in H; inv_all H; num_case;
    try (match goal with H : rat_add Strict _ _ = Ok _ |- _ =>
           apply rat_add_strict in H as [? HQ]; [|assumption..];
           rewrite val_Q_valid by assumption; eexists; split; [reflexivity|];
           rewrite HQ, ?Hb; reflexivity end);
    try (apply m_add_strict in Hb0 as (? & ? & c & ? & ? & ? & ?); num_case;
         exists c; split; [assumption|];
         repeat match goal with H : (_ == _)%Q |- _ => rewrite H; clear H end; reflexivity).
  - simpl. unfold i64_add in Hb. apply ovf_i64_exact in Hb as [-> _]; [|discriminate].
    eexists; split; [reflexivity|]. rewrite inject_Z_plus; reflexivity.
  - apply m_add_strict in Hb as (? & ? & c & ? & ? & ? & ?); num_case.
    exists c; split; assumption.
Qed.

Lemma val_sub_strict a b v : val_inv a -> val_inv b -> val_sub Strict a b = Ok v ->
  val_exact Qminus a b v.
Proof.
  intros Ha Hb' H p q Hp Hq.
  destruct a as [i|i|i], b as [j|j|j]; cbn [val_sub] in H; inv_all H; num_case;
    try (match goal with H : rat_sub Strict _ _ = Ok _ |- _ =>
           apply rat_sub_strict in H as [? HQ]; [|assumption..];
           rewrite val_Q_valid by assumption; eexists; split; [reflexivity|];
           rewrite HQ, ?Hb; reflexivity end);
    try (apply m_sub_strict in Hb0 as (? & ? & c & ? & ? & ? & ?); num_case;
         exists c; split; [assumption|];
         repeat match goal with H : (_ == _)%Q |- _ => rewrite H; clear H end; reflexivity).
  - simpl. unfold i64_sub in Hb. apply ovf_i64_exact in Hb as [-> _]; [|discriminate].
    eexists; split; [reflexivity|]. unfold Z.sub, Qminus.
    rewrite inject_Z_plus, inject_Z_opp. reflexivity.
  - apply m_sub_strict in Hb as (? & ? & c & ? & ? & ? & ?); num_case.
    exists c; split; assumption.
Qed.

Lemma val_zero_Q v q : val_is_zero v = true -> val_Q v = Some q -> (q == 0)%Q.
Proof.
  destruct v as [z|r|f]; simpl; [| |discriminate].
  - rewrite Z.eqb_eq. intros -> [= <-]. reflexivity.
  - rewrite andb_true_iff, Z.eqb_eq. intros [E _]. destruct (rden r =? 0); [discriminate|].
    intros [= <-]. unfold ratQ, Qeq. simpl. lia.
Qed.
Lemma val_one_Q v q : val_is_one v = true -> val_Q v = Some q -> val_inv v -> (q == 1)%Q.
Proof.
  intros H1 H2 H3. destruct (proj1 (val_is_one_Q v H3) H1) as (q' & E & Hq).
  destruct v; congruence || (simpl in *; congruence || idtac).
  all: rewrite H2 in E || (rewrite E in H2); injection E as <- || idtac; try assumption.
Qed.

Lemma val_mul_strict a b v : val_inv a -> val_inv b -> val_mul Strict a b = Ok v ->
  val_exact Qmult a b v.
Proof.
  intros Ha Hb' H p q Hp Hq. unfold val_mul in H.
  destruct (val_is_zero a) eqn:Ea; [|destruct (val_is_zero b) eqn:Eb]; cbn [orb] in H.
  1,2: injection H as <-; exists (inject_Z 0); split; [reflexivity|].
  - rewrite (val_zero_Q a p) by assumption. rewrite Qmult_0_l. reflexivity.
  - rewrite (val_zero_Q b q) by assumption. rewrite Qmult_0_r. reflexivity.
  - destruct a as [i|i|i], b as [j|j|j]; inv_all H; num_case;
    try (match goal with H : rat_mul Strict _ _ = Ok _ |- _ =>
           apply rat_mul_exact in H as [? [_ HQ]]; [|discriminate|assumption..];
           rewrite val_Q_valid by assumption; eexists; split; [reflexivity|];
           rewrite HQ, ?Hb; reflexivity end);
    try (apply m_mul_strict in Hb0 as (? & ? & c & ? & ? & ? & ?); num_case;
         exists c; split; [assumption|];
         repeat match goal with H : (_ == _)%Q |- _ => rewrite H; clear H end; reflexivity).
  + simpl. unfold i64_mul in Hb. apply ovf_i64_exact in Hb as [-> _]; [|discriminate].
    eexists; split; [reflexivity|]. rewrite inject_Z_mult; reflexivity.
  + apply m_mul_strict in Hb as (? & ? & c & ? & ? & ? & ?); num_case.
    exists c; split; assumption.
Qed.

Lemma ratQ_nonzero r : rat_valid r -> ~ (ratQ r == 0)%Q -> rnum r <> 0.
Proof. intros _ H E. apply H. unfold ratQ, Qeq. simpl. lia. Qed.

Lemma val_div_strict a b v p q : val_inv a -> val_inv b -> val_div Strict a b = Ok v ->
  val_Q a = Some p -> val_Q b = Some q -> ~ (q == 0)%Q ->
  exists r, val_Q v = Some r /\ (r == p / q)%Q.
Proof.
  intros Ha Hb' H Hp Hq Hnz. unfold val_div in H.
  destruct (val_is_zero a) eqn:Ea.
  { injection H as <-; exists (inject_Z 0); split; [reflexivity|].
    rewrite (val_zero_Q a p) by assumption. unfold Qdiv. rewrite Qmult_0_l. reflexivity. }
  destruct a as [i|i|i], b as [j|j|j]; inv_all H; num_case;
    try (match goal with H : rat_div Strict _ _ = Ok _ |- _ =>
           apply rat_div_exact in H as [? [_ HQ]];
           [ |discriminate|assumption|assumption
             |apply ratQ_nonzero; [assumption|];
              repeat match goal with H : (ratQ _ == inject_Z _)%Q |- _ => rewrite H end;
              assumption];
           rewrite val_Q_valid by assumption; eexists; split; [reflexivity|];
           rewrite HQ; repeat match goal with H : (ratQ _ == inject_Z _)%Q |- _ => rewrite H end;
           reflexivity end);
    try (apply m_div_strict in Hb0 as (? & ? & c & ? & ? & ? & ?); num_case;
         exists c; split; [assumption|];
         repeat match goal with H : (_ == _)%Q |- _ => rewrite H; clear H end; reflexivity).
  apply m_div_strict in Hb as (? & ? & c & ? & ? & ? & ?); num_case.
  exists c; split; assumption.
Qed.

Lemma f_val_neg f a : f_val f = Some a -> exists c, f_val (f_neg f) = Some c /\ (c == - a)%Q.
Proof.
  destruct f as [s|s| |s mm ee]; simpl; try discriminate; intros [= <-].
  - eexists; split; reflexivity.
  - eexists; split; [reflexivity|].
    destruct ee; destruct s; unfold Qeq, Qopp, inject_Z; cbn [Qnum Qden negb];
      rewrite <- ?Pos2Z.opp_pos; ring.
Qed.

Lemma val_neg_strict a v p : val_inv a -> val_neg Strict a = Ok v -> val_Q a = Some p ->
  exists r, val_Q v = Some r /\ (r == - p)%Q.
Proof.
  intros Ha H Hp. destruct a as [i|i|i]; cbn [val_neg] in H; inv_all H.
  - unfold i64_neg in Hb. apply ovf_i64_exact in Hb as [-> _]; [|discriminate].
    simpl in *. injection Hp as <-. eexists; split; [reflexivity|]. rewrite inject_Z_opp; reflexivity.
  - apply val_Q_rat in Hp as [Hv ->]; [|assumption].
    apply rat_neg_inv in Hb as (HI & H1 & H2 & H3); [|apply Ha].
    assert (rat_valid a) as Hva by (apply rat_inv_valid; [assumption|rewrite H3; unfold rat_valid in Hv; lia]).
    rewrite val_Q_valid by assumption. eexists; split; [reflexivity|].
    unfold ratQ. rewrite H1, H2, H3. unfold Qeq, Qopp. cbn [Qnum Qden]. ring.
  - apply f_val_neg. exact Hp.
Qed.

Lemma wrap_val_Q v p : val_winv v -> val_Q v = Some p ->
  exists r, val_Q (nval (wrap_val v)) = Some r /\ (r == p)%Q.
Proof.
  intros Hw H. unfold wrap_val. destruct (val_is_zero v) eqn:E0; [|destruct (val_is_one v) eqn:E1].
  - exists (inject_Z 0). split; [reflexivity|]. symmetry. eapply val_zero_Q; eauto.
  - exists (inject_Z 1). split; [reflexivity|]. symmetry.
    eapply val_one_Q; eauto. destruct v; simpl in *; try tauto.
    split; [assumption|]. rewrite !andb_true_iff, !Z.eqb_eq in E1. lia.
  - exists p. split; [exact H|reflexivity].
Qed.

(** ** SmartNum level *)
Definition sn_exact (op : Q -> Q -> Q) (x y z : snum) : Prop :=
  forall p q, val_Q (nval x) = Some p -> val_Q (nval y) = Some q ->
  exists r, val_Q (nval z) = Some r /\ (r == op p q)%Q.

Lemma zero_Q x p : num_ok x -> sn_is_zero x = true -> val_Q (nval x) = Some p -> (p == 0)%Q.
Proof. intros H H0 Hp. rewrite is_zero_val in H0 by assumption. eapply val_zero_Q; eauto. Qed.
Lemma one_Q x p : num_ok x -> sn_is_one x = true -> val_Q (nval x) = Some p -> (p == 1)%Q.
Proof. intros H H0 Hp. rewrite is_one_val in H0 by assumption. eapply val_one_Q; eauto. apply H. Qed.

Lemma sn_neg_strict x z p : num_ok x -> sn_neg Strict x = Ok z -> val_Q (nval x) = Some p ->
  exists r, val_Q (nval z) = Some r /\ (r == - p)%Q.
Proof.
  intros Hx H Hp. unfold sn_neg in H. inv_all H. apply guard_ok in Hb as [Hb _].
  destruct (val_neg_strict _ _ _ (proj1 Hx) Hb Hp) as (r & Hr & E).
  destruct (wrap_val_Q a r) as (r' & Hr' & E'); [eapply val_neg_inv; [apply Hx|eassumption]|assumption|].
  exists r'. split; [assumption|]. rewrite E'. exact E.
Qed.

Lemma sn_add_strict x y z : num_ok x -> num_ok y -> sn_add Strict x y = Ok z ->
  sn_exact Qplus x y z.
Proof.
  intros Hx Hy H p q Hp Hq. unfold sn_add in H.
  destruct (sn_is_zero x) eqn:Zx; [|destruct (sn_is_zero y) eqn:Zy].
  - injection H as <-. exists q. split; [assumption|].
    rewrite (zero_Q x p) by assumption. rewrite Qplus_0_l. reflexivity.
  - injection H as <-. exists p. split; [assumption|].
    rewrite (zero_Q y q) by assumption. rewrite Qplus_0_r. reflexivity.
  - inv_all H. apply guard_ok in Hb as [Hb _].
    destruct (val_add_strict _ _ _ (proj1 Hx) (proj1 Hy) Hb p q Hp Hq) as (r & Hr & E).
    destruct (wrap_val_Q a r) as (r' & Hr' & E'); [eapply val_add_inv; eassumption|assumption|].
    exists r'. split; [assumption|]. rewrite E'. exact E.
Qed.
Lemma sn_sub_strict x y z : num_ok x -> num_ok y -> sn_sub Strict x y = Ok z ->
  sn_exact Qminus x y z.
Proof.
  intros Hx Hy H p q Hp Hq. unfold sn_sub in H.
  destruct (sn_is_zero x) eqn:Zx; [|destruct (sn_is_zero y) eqn:Zy].
  - destruct (sn_neg_strict _ _ _ Hy H Hq) as (r & Hr & E). exists r. split; [assumption|].
    rewrite E, (zero_Q x p) by assumption. unfold Qminus. rewrite Qplus_0_l. reflexivity.
  - injection H as <-. exists p. split; [assumption|].
    rewrite (zero_Q y q) by assumption. unfold Qminus. rewrite Qplus_0_r. reflexivity.
  - inv_all H. apply guard_ok in Hb as [Hb _].
    destruct (val_sub_strict _ _ _ (proj1 Hx) (proj1 Hy) Hb p q Hp Hq) as (r & Hr & E).
    destruct (wrap_val_Q a r) as (r' & Hr' & E'); [eapply val_sub_inv; eassumption|assumption|].
    exists r'. split; [assumption|]. rewrite E'. exact E.
Qed.
Lemma sn_mul_strict x y z : num_ok x -> num_ok y -> sn_mul Strict x y = Ok z ->
  sn_exact Qmult x y z.
Proof.
  intros Hx Hy H p q Hp Hq. unfold sn_mul in H.
  destruct (sn_is_one x) eqn:Zx; [|destruct (sn_is_one y) eqn:Zy].
  - injection H as <-. exists q. split; [assumption|].
    rewrite (one_Q x p) by assumption. rewrite Qmult_1_l. reflexivity.
  - injection H as <-. exists p. split; [assumption|].
    rewrite (one_Q y q) by assumption. rewrite Qmult_1_r. reflexivity.
  - inv_all H. apply guard_ok in Hb as [Hb _].
    destruct (val_mul_strict _ _ _ (proj1 Hx) (proj1 Hy) Hb p q Hp Hq) as (r & Hr & E).
    destruct (wrap_val_Q a r) as (r' & Hr' & E');
      [eapply val_mul_inv; [apply Hx|apply Hy|eassumption]|assumption|].
    exists r'. split; [assumption|]. rewrite E'. exact E.
Qed.
Lemma sn_div_strict x y z p q : num_ok x -> num_ok y -> sn_div Strict x y = Ok z ->
  val_Q (nval x) = Some p -> val_Q (nval y) = Some q -> ~ (q == 0)%Q ->
  exists r, val_Q (nval z) = Some r /\ (r == p / q)%Q.
Proof.
  intros Hx Hy H Hp Hq Hnz. unfold sn_div in H.
  inv_all H. apply guard_ok in Hb as [Hb _].
  destruct (val_div_strict _ _ _ p q (proj1 Hx) (proj1 Hy) Hb Hp Hq Hnz) as (r & Hr & E).
  destruct (wrap_val_Q a r) as (r' & Hr' & E');
    [eapply val_div_inv; [apply Hx|apply Hy|eassumption]|assumption|].
  exists r'. split; [assumption|]. rewrite E'. exact E.
Qed.

(** ** identities *)
Lemma sn_add_0_l m z x : sn_is_zero z = true -> sn_add m z x = Ok x.
Proof. intros H. unfold sn_add. rewrite H. reflexivity. Qed.
Lemma sn_add_0_r m z x : sn_is_zero z = true -> sn_is_zero x = false -> sn_add m x z = Ok x.
Proof. intros H H'. unfold sn_add. rewrite H', H. reflexivity. Qed.
Lemma sn_sub_0_l m z x : sn_is_zero z = true -> sn_sub m z x = sn_neg m x.
Proof. intros H. unfold sn_sub. rewrite H. reflexivity. Qed.
Lemma sn_sub_0_r m z x : sn_is_zero z = true -> sn_is_zero x = false -> sn_sub m x z = Ok x.
Proof. intros H H'. unfold sn_sub. rewrite H', H. reflexivity. Qed.
Lemma sn_mul_1_l m o x : sn_is_one o = true -> sn_mul m o x = Ok x.
Proof. intros H. unfold sn_mul. rewrite H. reflexivity. Qed.
Lemma sn_mul_1_r m o x : sn_is_one o = true -> sn_is_one x = false -> sn_mul m x o = Ok x.
Proof. intros H H'. unfold sn_mul. rewrite H', H. reflexivity. Qed.

Lemma zero_one_false x : sn_is_zero x = true -> sn_is_one x = false.
Proof. unfold sn_is_zero, sn_is_one. destruct (ntag x); simpl; congruence. Qed.

Lemma sn_neg_zero m z : num_ok z -> sn_is_zero z = true -> sn_neg m z = Ok sn_zero.
Proof.
  intros Hz H. pose proof H as HT. rewrite is_zero_val in H by assumption. unfold sn_neg.
  assert (approx z = false) as ->.
  { unfold approx, sn_is_zero, sn_is_pi, sn_is_e in *. destruct (ntag z); simpl in *; congruence. }
  rewrite guard_false. destruct (nval z) as [i|r|f] eqn:E; simpl in H; [| |discriminate].
  - apply Z.eqb_eq in H. subst. simpl. reflexivity.
  - destruct Hz as [Hz _]. rewrite E in Hz. destruct Hz as [Hz _].
    simpl. unfold rat_neg, i64_neg. rewrite ovf_i64_in.
    + cbn [bind]. unfold wrap_val. cbn [val_is_zero rnum rden]. rewrite H. reflexivity.
    + destruct Hz as [Hz _]. unfold two63. lia.
Qed.

Lemma sn_mul_0_l m z x : num_ok z -> sn_is_zero z = true ->
  exists r, sn_mul m z x = Ok r /\ sn_is_zero r = true.
Proof.
  intros Hz H. unfold sn_mul. rewrite (zero_one_false _ H).
  destruct (sn_is_one x); [eauto|].
  rewrite is_zero_val in H by assumption. unfold val_mul. rewrite H. cbn [orb negb].
  rewrite andb_false_r, guard_false. eexists. split; [reflexivity|]. reflexivity.
Qed.
Lemma sn_mul_0_r m z x : num_ok z -> sn_is_zero z = true ->
  exists r, sn_mul m x z = Ok r /\ sn_is_zero r = true.
Proof.
  intros Hz H. unfold sn_mul. rewrite (zero_one_false _ H).
  destruct (sn_is_one x); [eauto|].
  rewrite is_zero_val in H by assumption. unfold val_mul. rewrite H, orb_true_r. cbn [negb].
  rewrite andb_false_r, guard_false. eexists. split; [reflexivity|]. reflexivity.
Qed.
Lemma sn_div_0_l m z x : num_ok z -> sn_is_zero z = true -> sn_div m z x = Ok sn_zero.
Proof.
  intros Hz H. rewrite is_zero_val in H by assumption. unfold sn_div, val_div. rewrite H.
  cbn [negb]. rewrite andb_false_r, guard_false. reflexivity.
Qed.
Lemma sn_neg_panic x : num_ok x -> (sn_neg Debug x = Panic <-> nval x = Integer (- two63)).
Proof.
  intros [Hx _]. unfold sn_neg, guard. cbn [is_strict andb].
  destruct (nval x) as [i|r|f]; simpl.
  - unfold i64_neg, ovf_i64. destruct (in_i64 (- i)) eqn:E; simpl.
    + split; [discriminate|]. intros [= ->]. discriminate.
    + split; [|reflexivity]. intros _. f_equal. simpl in Hx. apply in_i64_iff in Hx.
      assert (~ (- two63 <= - i < two63)) by (rewrite <- in_i64_iff; congruence).
      unfold two63 in *. lia.
  - destruct Hx as [[Hs _] _]. unfold rat_neg, i64_neg. rewrite ovf_i64_in by (unfold two63; lia).
    simpl. split; discriminate.
  - split; discriminate.
Qed.
Lemma sn_neg_release x : exists z, sn_neg Release x = Ok z.
Proof.
  unfold sn_neg, guard. cbn [is_strict andb]. destruct (nval x) as [i|r|f]; simpl.
  - unfold i64_neg, ovf_i64. destruct (in_i64 (- i)); simpl; eauto.
  - unfold rat_neg, i64_neg, ovf_i64. destruct (in_i64 _); simpl; eauto.
  - eauto.
Qed.

(** ** division by zero *)

Lemma undefined_not_tagged x : num_ok x -> undefined_fraction x ->
  sn_is_zero x = false /\ sn_is_one x = false.
Proof.
  intros Hx (r & E & D). rewrite is_zero_val, is_one_val by assumption. rewrite E. simpl.
  rewrite D, Z.eqb_refl. simpl. rewrite !andb_false_r. split; reflexivity.
Qed.

Lemma approx_exact x : num_ok x -> exact_num x -> approx x = false.
Proof.
  intros [_ H] He. unfold approx, sn_is_pi, sn_is_e. destruct (ntag x); try reflexivity.
  - exfalso. eapply He; eauto.
  - exfalso. eapply He; eauto.
Qed.

Lemma wrap_undefined r : rden r = 0 -> undefined_fraction (wrap_val (Rational r)).
Proof.
  intros D. unfold wrap_val. simpl. rewrite D, Z.eqb_refl. simpl. rewrite !andb_false_r.
  exists r. split; [reflexivity|assumption].
Qed.

Lemma rat_div_den0 m x y z : rat_inv x -> rat_inv y -> rat_div m x y = Ok z -> rnum y = 0 -> rden z = 0.
Proof.
  intros Hx Hy H E. unfold rat_div, u64_mul, i64_mul in H. do 3 inv_bind H. injection H as <-.
  rewrite E, Z.mul_0_r in Hb1. rewrite ovf_u64_in in Hb1 by (unfold two64; lia).
  injection Hb1 as <-. apply ovf_u64_ok in Hb0.
  destruct (reduce_bounds (mkRat (rsign x * rsign y) a0 0)) as (_ & _ & _ & _ & X); cbn [rnum rden]; try lia.
  apply X. reflexivity.
Qed.

Lemma val_is_zero_rnum r : val_is_zero (Rational r) = true -> rnum r = 0.
Proof. simpl. rewrite andb_true_iff, Z.eqb_eq. tauto. Qed.

Lemma rat_of_i64_full m v r : in_i64 v = true -> rat_of_i64 m v = Ok r ->
  rat_inv r /\ rden r = 1 /\ rnum r = Z.abs v.
Proof. intros Hv H. apply rat_of_i64_inv in H as (H1 & H2 & H3 & _); auto using rat_valid_inv. Qed.

Lemma div_zero_undefined m x y z : num_ok x -> num_ok y -> exact_num x -> exact_num y ->
  sn_is_zero x = false -> sn_is_zero y = true -> sn_div m x y = Ok z -> undefined_fraction z.
Proof.
  intros Hx Hy Ex Ey Zx Zy H. rewrite is_zero_val in Zx, Zy by assumption.
  unfold sn_div in H. inv_all H. apply guard_ok in Hb as [Hb _]. unfold val_div in Hb.
  rewrite Zx in Hb. destruct Hx as [Hx _], Hy as [Hy _].
  destruct (nval x) as [i|i|i] eqn:X; [| |exfalso; eapply Ex; eauto];
  (destruct (nval y) as [j|j|j] eqn:Y; [| |exfalso; eapply Ey; eauto]);
  inv_all Hb; apply wrap_undefined;
  repeat match goal with
  | Hr : rat_of_i64 _ _ = Ok _ |- _ => apply rat_of_i64_full in Hr as (? & ? & ?); [|assumption]
  end;
  try (apply val_is_zero_rnum in Zy); try (simpl in Zy; apply Z.eqb_eq in Zy; subst j);
  simpl in Hx, Hy;
  match goal with Hd : rat_div _ _ _ = Ok _ |- _ => eapply rat_div_den0; [| |exact Hd|] end;
  try assumption; try (apply Hx); try (apply Hy).
Qed.

Lemma reduce_den0 n s : 0 <= n -> rden (rat_reduce (mkRat s n 0)) = 0.
Proof.
  intros H. destruct (reduce_bounds (mkRat s n 0)) as (_ & _ & _ & _ & X); cbn [rnum rden]; try lia.
  apply X. reflexivity.
Qed.

Lemma rat_add_den0 m x y z : rat_add m x y = Ok z -> rden x * rden y = 0 -> rden z = 0.
Proof.
  unfold rat_add, i64_add. intros H E. do 3 inv_bind H.
  apply ovf_i64_ok in Hb1. clear Hb Hb0.
  unfold rat_finish, i64_abs, u64_mul in H. rewrite E in H. do 3 inv_bind H.
  rewrite ovf_u64_in in Hb2 by (unfold two64; lia). injection Hb2 as <-. injection H as <-.
  apply reduce_den0. apply cast_u64_ok in Hb0. lia.
Qed.
Lemma rat_sub_den0 m x y z : rat_sub m x y = Ok z -> rden x * rden y = 0 -> rden z = 0.
Proof.
  unfold rat_sub, i64_sub. intros H E. do 3 inv_bind H.
  apply ovf_i64_ok in Hb1. clear Hb Hb0.
  unfold rat_finish, i64_abs, u64_mul in H. rewrite E in H. do 3 inv_bind H.
  rewrite ovf_u64_in in Hb2 by (unfold two64; lia). injection Hb2 as <-. injection H as <-.
  apply reduce_den0. apply cast_u64_ok in Hb0. lia.
Qed.
Lemma rat_mul_den0 m x y z : rat_mul m x y = Ok z -> rden x * rden y = 0 -> rden z = 0.
Proof.
  unfold rat_mul, i64_mul, u64_mul. intros H E. do 3 inv_bind H. rewrite E in Hb1.
  rewrite ovf_u64_in in Hb1 by (unfold two64; lia). injection Hb1 as <-. injection H as <-.
  apply reduce_den0. apply ovf_u64_ok in Hb0. lia.
Qed.

(** an undefined fraction stays undefined under + - (any exact number), * (nonzero), negation *)
Lemma undefined_neg m x z : num_ok x -> undefined_fraction x -> sn_neg m x = Ok z -> undefined_fraction z.
Proof.
  intros Hx (r & E & D) H. unfold sn_neg in H. inv_all H. apply guard_ok in Hb as [Hb _].
  rewrite E in Hb. simpl in Hb. inv_all Hb. apply wrap_undefined.
  destruct Hx as [Hx _]. rewrite E in Hx. apply rat_neg_inv in Hb0 as (_ & _ & _ & ->); [assumption|apply Hx].
Qed.

Lemma undefined_add m x y z : num_ok x -> num_ok y -> exact_num x -> exact_num y ->
  undefined_fraction x \/ undefined_fraction y -> sn_add m x y = Ok z -> undefined_fraction z.
Proof.
  intros Hx Hy Ex Ey Hu H. unfold sn_add in H.
  destruct (sn_is_zero x) eqn:Zx; [|destruct (sn_is_zero y) eqn:Zy].
  - injection H as <-. destruct Hu as [Hu|Hu]; [|assumption].
    apply undefined_not_tagged in Hu as [? _]; [congruence|assumption].
  - injection H as <-. destruct Hu as [Hu|Hu]; [assumption|].
    apply undefined_not_tagged in Hu as [? _]; [congruence|assumption].
  - inv_all H. apply guard_ok in Hb as [Hb _]. unfold undefined_fraction in Hu.
    destruct (nval x) as [i|i|i] eqn:X; [| |exfalso; eapply Ex; eauto];
    (destruct (nval y) as [j|j|j] eqn:Y; [| |exfalso; eapply Ey; eauto]); simpl in Hb;
    destruct Hu as [(r & [=] & D)|(r & [=] & D)]; subst; inv_all Hb; apply wrap_undefined;
    eapply rat_add_den0; try eassumption; rewrite D; ring.
Qed.
Lemma undefined_sub m x y z : num_ok x -> num_ok y -> exact_num x -> exact_num y ->
  undefined_fraction x \/ undefined_fraction y -> sn_sub m x y = Ok z -> undefined_fraction z.
Proof.
  intros Hx Hy Ex Ey Hu H. unfold sn_sub in H.
  destruct (sn_is_zero x) eqn:Zx; [|destruct (sn_is_zero y) eqn:Zy].
  - destruct Hu as [Hu|Hu].
    + apply undefined_not_tagged in Hu as [? _]; [congruence|assumption].
    + eapply undefined_neg; eassumption.
  - injection H as <-. destruct Hu as [Hu|Hu]; [assumption|].
    apply undefined_not_tagged in Hu as [? _]; [congruence|assumption].
  - inv_all H. apply guard_ok in Hb as [Hb _]. unfold undefined_fraction in Hu.
    destruct (nval x) as [i|i|i] eqn:X; [| |exfalso; eapply Ex; eauto];
    (destruct (nval y) as [j|j|j] eqn:Y; [| |exfalso; eapply Ey; eauto]); simpl in Hb;
    destruct Hu as [(r & [=] & D)|(r & [=] & D)]; subst; inv_all Hb; apply wrap_undefined;
    eapply rat_sub_den0; try eassumption; rewrite D; ring.
Qed.
Lemma undefined_mul m x y z : num_ok x -> num_ok y -> exact_num x -> exact_num y ->
  sn_is_zero x = false -> sn_is_zero y = false ->
  undefined_fraction x \/ undefined_fraction y -> sn_mul m x y = Ok z -> undefined_fraction z.
Proof.
  intros Hx Hy Ex Ey Zx' Zy' Hu H. unfold sn_mul in H.
  destruct (sn_is_one x) eqn:Zx; [|destruct (sn_is_one y) eqn:Zy].
  - injection H as <-. destruct Hu as [Hu|Hu]; [|assumption].
    apply undefined_not_tagged in Hu as [_ ?]; [congruence|assumption].
  - injection H as <-. destruct Hu as [Hu|Hu]; [assumption|].
    apply undefined_not_tagged in Hu as [_ ?]; [congruence|assumption].
  - inv_all H. apply guard_ok in Hb as [Hb _]. unfold undefined_fraction in Hu.
    rewrite is_zero_val in Zx', Zy' by assumption.
    unfold val_mul in Hb. rewrite Zx', Zy' in Hb. cbn [orb] in Hb.
    destruct (nval x) as [i|i|i] eqn:X; [| |exfalso; eapply Ex; eauto];
    (destruct (nval y) as [j|j|j] eqn:Y; [| |exfalso; eapply Ey; eauto]);
    destruct Hu as [(r & [=] & D)|(r & [=] & D)]; subst; inv_all Hb; apply wrap_undefined;
    eapply rat_mul_den0; try eassumption; rewrite D; ring.
Qed.

(** when x/0 panics (debug): only i64::MIN as dividend, or the product of the dividend's
    numerator with the denominator of the zero overflows *)
Lemma rat_div_zero_debug x y : rat_inv x -> rat_inv y -> rnum y = 0 -> rnum x * rden y < two64 ->
  exists z, rat_div Debug x y = Ok z.
Proof.
  intros Hx Hy E H. unfold rat_div, i64_mul, u64_mul.
  rewrite ovf_i64_in by (apply sign_mul_in'; assumption). cbn [bind].
  destruct Hx as (_ & Hn & Hd), Hy as (_ & Hn' & Hd').
  rewrite ovf_u64_in by nia. cbn [bind].
  rewrite E, Z.mul_0_r, ovf_u64_in by (unfold two64; lia). cbn [bind]. eauto.
Qed.

Lemma rat_of_i64_debug v : in_i64 v = true -> v <> - two63 ->
  exists r, rat_of_i64 Debug v = Ok r /\ rat_inv r /\ rden r = 1 /\ rnum r = Z.abs v.
Proof.
  intros Hv Hne. assert (exists r, rat_of_i64 Debug v = Ok r) as (r & E).
  { pose proof (proj1 (in_i64_iff v) Hv). unfold rat_of_i64, i64_abs.
    rewrite ovf_i64_in by lia. cbn [bind].
    rewrite cast_u64_in by (unfold two63, two64 in *; lia). cbn [bind]. eauto. }
  exists r. split; [assumption|]. eapply rat_of_i64_full; eauto.
Qed.

Lemma div_zero_debug x y : num_ok x -> num_ok y -> exact_num x -> exact_num y ->
  sn_is_zero y = true -> ~ int_min x -> num_of x * den_of y < two64 ->
  exists z, sn_div Debug x y = Ok z.
Proof.
  intros Hx Hy Ex Ey Zy Hm Hr. destruct (sn_is_zero x) eqn:Zx.
  { eexists. apply sn_div_0_l; assumption. }
  rewrite is_zero_val in Zx, Zy by assumption.
  unfold sn_div, guard. cbn [is_strict andb]. unfold val_div. rewrite Zx.
  destruct Hx as [Hx _], Hy as [Hy _]. unfold int_min, num_of, den_of in *.
  destruct (nval x) as [i|i|i] eqn:X; [| |exfalso; eapply Ex; eauto];
  (destruct (nval y) as [j|j|j] eqn:Y; [| |exfalso; eapply Ey; eauto]); simpl in Hx, Hy.
  - destruct (rat_of_i64_debug i) as (r1 & E1 & I1 & D1 & N1); [assumption|congruence|].
    simpl in Zy. apply Z.eqb_eq in Zy. subst j.
    destruct (rat_of_i64_debug 0) as (r2 & E2 & I2 & D2 & N2); [assumption|discriminate|].
    rewrite E1, E2. cbn [bind].
    destruct (rat_div_zero_debug r1 r2) as (z & ->); try assumption; [rewrite N1, D2; assumption|].
    cbn [bind]. eauto.
  - destruct (rat_of_i64_debug i) as (r1 & E1 & I1 & D1 & N1); [assumption|congruence|].
    apply val_is_zero_rnum in Zy. rewrite E1. cbn [bind].
    destruct (rat_div_zero_debug r1 j) as (z & ->); try assumption; try apply Hy;
      [rewrite N1; assumption|].
    cbn [bind]. eauto.
  - simpl in Zy. apply Z.eqb_eq in Zy. subst j.
    destruct (rat_of_i64_debug 0) as (r2 & E2 & I2 & D2 & N2); [assumption|discriminate|].
    rewrite E2. cbn [bind].
    destruct (rat_div_zero_debug i r2) as (z & ->); try assumption; try apply Hx;
      [rewrite D2; assumption|].
    cbn [bind]. eauto.
  - apply val_is_zero_rnum in Zy.
    destruct (rat_div_zero_debug i j) as (z & ->); try assumption; try apply Hx; try apply Hy.
    cbn [bind]. eauto.
Qed.

(** ** conversions and sign *)
Lemma sn_of_i64_to z : sn_to_i64 (sn_of_i64 z) = Some z.
Proof. reflexivity. Qed.

Lemma sn_of_u64_val m v : in_u64 v = true -> m <> Strict ->
  sn_of_u64 m v = Ok (sn_of_i64 (if v <? two63 then v else v - two64)).
Proof.
  intros Hv Hm. apply in_u64_iff in Hv. unfold sn_of_u64, val_of_u64, cast_i64.
  destruct (Z.ltb_spec v two63) as [H|H].
  - assert (in_i64 v = true) as -> by (apply in_i64_iff; unfold two63 in *; lia). reflexivity.
  - assert (in_i64 v = false) as ->.
    { destruct (in_i64 v) eqn:E; [|reflexivity]. apply in_i64_iff in E. lia. }
    assert (wrap_i64 v = v - two64) as E.
    { unfold wrap_i64. rewrite <- (Z.mod_unique (v + two63) two64 1 (v + two63 - two64));
        unfold two63, two64 in *; lia. }
    destruct m; try congruence; cbn [bind]; rewrite E; reflexivity.
Qed.

Lemma f_val_finite s mm ee : exists q, f_val (S754_finite s mm ee) = Some q /\
  (if s then (q < 0)%Q else (0 < q)%Q).
Proof.
  cbn [f_val]. eexists; split; [reflexivity|].
  destruct ee as [|p|p].
  - destruct s; reflexivity.
  - assert (0 < 2 ^ Z.pos p) by (apply Z.pow_pos_nonneg; lia).
    destruct s; unfold Qlt, inject_Z; cbn [Qnum Qden]; nia.
  - destruct s; reflexivity.
Qed.

Lemma sn_sign_spec x q : num_ok x -> val_Q (nval x) = Some q ->
  ((0 < q)%Q -> sn_sign x = 1) /\ ((q < 0)%Q -> sn_sign x = -1).
Proof.
  intros [Hx _] Hq. unfold sn_sign. destruct (nval x) as [z|r|f].
  - injection Hq as <-. unfold Qlt, i64_signum. simpl. split; intros; lia.
  - apply val_Q_rat in Hq as [(Hs & Hn & Hd) ->]; [|assumption].
    unfold Qlt, ratQ, Qeq in *. simpl in *. split; intros; nia.
  - cbn [val_Q] in Hq. destruct f as [s|s| |s mm ee]; try discriminate.
    + injection Hq as <-. split; intros H; exfalso; eapply Qlt_irrefl; exact H.
    + destruct (f_val_finite s mm ee) as (q' & Hq' & Hs). rewrite Hq' in Hq.
      injection Hq as <-. destruct s; split; intros Hc; try reflexivity; exfalso;
        eapply (Qlt_irrefl q'); eapply Qlt_trans; eassumption.
Qed.

(** ** the three modes agree: Strict <= Debug <= Release *)
Lemma trap_unless_mono m1 m2 b r : mle m1 m2 -> refines (trap_unless m1 b r) (trap_unless m2 b r).
Proof. unfold refines, trap_unless. destruct m1, m2, b; simpl; intros; try tauto; congruence. Qed.
Lemma guard_mono m1 m2 b r1 r2 : mle m1 m2 -> refines r1 r2 -> refines (guard m1 b r1) (guard m2 b r2).
Proof.
  intros Hm H. unfold refines, guard in *. destruct m1, m2, b; simpl in *; intros; try tauto;
    try discriminate; auto.
Qed.

Ltac mono_step :=
  match goal with
  | |- refines ?a ?a => apply refines_refl
  | |- refines (bind _ _) (bind _ _) => apply refines_bind; [|intros ? _]
  | |- refines (if ?c then _ else _) (if ?c then _ else _) => apply refines_if
  | |- refines (match ?x with _ => _ end) (match ?x with _ => _ end) => destruct x
  | |- refines (ovf_i64 _ _) _ => apply ovf_i64_mono; assumption
  | |- refines (ovf_u64 _ _) _ => apply ovf_u64_mono; assumption
  | |- refines (cast_i64 _ _) _ => apply cast_i64_mono; assumption
  | |- refines (cast_u64 _ _) _ => apply cast_u64_mono; assumption
  | |- refines (trap_unless _ _ _) _ => apply trap_unless_mono; assumption
  | |- refines (guard _ _ _) (guard _ _ _) => apply guard_mono; [assumption|]
  end.

Section Mono.
  Variables m1 m2 : mode.
  Hypothesis Hm : mle m1 m2.

  Lemma rat_to_f64_mono r : refines (rat_to_f64 m1 r) (rat_to_f64 m2 r).
  Proof. unfold rat_to_f64, m_of_Z, m_mul, m_div. repeat mono_step. Qed.
  Lemma rat_new_mono s n d : refines (rat_new m1 s n d) (rat_new m2 s n d).
  Proof. unfold rat_new, i64_abs. repeat mono_step. Qed.
  Lemma rat_neg_mono x : refines (rat_neg m1 x) (rat_neg m2 x).
  Proof. unfold rat_neg, i64_neg. repeat mono_step. Qed.
  Lemma rat_add_mono x y : refines (rat_add m1 x y) (rat_add m2 x y).
  Proof. unfold rat_add, rat_cross, rat_finish, i64_add, i64_mul, u64_mul, i64_abs. repeat mono_step. Qed.
  Lemma rat_sub_mono x y : refines (rat_sub m1 x y) (rat_sub m2 x y).
  Proof. unfold rat_sub, rat_cross, rat_finish, i64_sub, i64_mul, u64_mul, i64_abs. repeat mono_step. Qed.
  Lemma rat_mul_mono x y : refines (rat_mul m1 x y) (rat_mul m2 x y).
  Proof. unfold rat_mul, i64_mul, u64_mul. repeat mono_step. Qed.
  Lemma rat_div_mono x y : refines (rat_div m1 x y) (rat_div m2 x y).
  Proof. unfold rat_div, i64_mul, u64_mul. repeat mono_step. Qed.
  Lemma rat_of_i64_mono v : refines (rat_of_i64 m1 v) (rat_of_i64 m2 v).
  Proof. unfold rat_of_i64, i64_abs. repeat mono_step. Qed.

  Ltac val_mono :=
    repeat first [ mono_step
                 | apply rat_of_i64_mono | apply rat_to_f64_mono | apply rat_add_mono
                 | apply rat_sub_mono | apply rat_mul_mono | apply rat_div_mono | apply rat_neg_mono ].

  Lemma val_to_f64_mono v : refines (val_to_f64 m1 v) (val_to_f64 m2 v).
  Proof. unfold val_to_f64, m_of_Z. val_mono. Qed.
  Lemma val_add_mono a b : refines (val_add m1 a b) (val_add m2 a b).
  Proof. unfold val_add, i64_add, m_add, m_of_Z. val_mono. Qed.
  Lemma val_sub_mono a b : refines (val_sub m1 a b) (val_sub m2 a b).
  Proof. unfold val_sub, i64_sub, m_sub, m_of_Z. val_mono. Qed.
  Lemma val_mul_mono a b : refines (val_mul m1 a b) (val_mul m2 a b).
  Proof. unfold val_mul, i64_mul, m_mul, m_of_Z. val_mono. Qed.
  Lemma val_div_mono a b : refines (val_div m1 a b) (val_div m2 a b).
  Proof. unfold val_div, m_div, m_of_Z. val_mono. Qed.
  Lemma val_neg_mono a : refines (val_neg m1 a) (val_neg m2 a).
  Proof. unfold val_neg, i64_neg. val_mono. Qed.
  Lemma sn_neg_mono x : refines (sn_neg m1 x) (sn_neg m2 x).
  Proof. unfold sn_neg. repeat mono_step. apply val_neg_mono. Qed.
  Lemma sn_add_mono x y : refines (sn_add m1 x y) (sn_add m2 x y).
  Proof. unfold sn_add. repeat mono_step. apply val_add_mono. Qed.
  Lemma sn_sub_mono x y : refines (sn_sub m1 x y) (sn_sub m2 x y).
  Proof. unfold sn_sub. repeat mono_step; [apply sn_neg_mono|]. apply val_sub_mono. Qed.
  Lemma sn_mul_mono x y : refines (sn_mul m1 x y) (sn_mul m2 x y).
  Proof. unfold sn_mul. repeat mono_step. apply val_mul_mono. Qed.
  Lemma sn_div_mono x y : refines (sn_div m1 x y) (sn_div m2 x y).
  Proof. unfold sn_div. repeat mono_step. apply val_div_mono. Qed.
  Lemma sn_of_u64_mono v : refines (sn_of_u64 m1 v) (sn_of_u64 m2 v).
  Proof. unfold sn_of_u64, val_of_u64. repeat mono_step. Qed.
  Lemma sn_to_f64_mono v : refines (sn_to_f64 m1 v) (sn_to_f64 m2 v).
  Proof. apply val_to_f64_mono. Qed.
  Lemma sn_to_rational_mono v : refines (sn_to_rational m1 v) (sn_to_rational m2 v).
  Proof. unfold sn_to_rational. val_mono. Qed.
  Lemma sn_new_rational_mono s n d : refines (sn_new_rational m1 s n d) (sn_new_rational m2 s n d).
  Proof. unfold sn_new_rational, val_new_rational. repeat mono_step. apply rat_new_mono. Qed.
  Lemma sn_is_close_mono x y eps : refines (sn_is_close m1 x y eps) (sn_is_close m2 x y eps).
  Proof. unfold sn_is_close, val_is_close, m_sub. repeat first [mono_step | apply val_to_f64_mono]. Qed.
  Lemma e_near_mono x y eps : refines (e_near m1 x y eps) (e_near m2 x y eps).
  Proof. unfold e_near. repeat first [mono_step | apply sn_sub_mono | apply sn_to_f64_mono]. Qed.
End Mono.
