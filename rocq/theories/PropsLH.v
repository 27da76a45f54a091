(** * PropsLH: limit's use of L'Hopital's rule is complete on positive polynomials (C80) *)
From Coq Require Import ZArith QArith Qreals List String Bool Lia Lra Psatz.
From Coq Require Import Reals.
From Coquelicot Require Import Coquelicot.
From Verif Require Import Base Float Rational SmartNum Ast Compute Limit Spec SpecTree SpecR SpecLim SpecExact SpecLH.
From Verif Require Import BaseProofs RationalProofs NumProofs NumProofs2 ModProofs TreeProofs TreeProofs2 TreeProofs3 TreeProofs4 TreeProofs5.
From Verif Require Import RealProofs LimProofs LimSound PropsNum PropsTree PropsReal PropsLim PropsRing.
Import ListNotations.
Open Scope Z_scope.

(** structural lowest term *)
Definition combine (i : nat) (a : Z) (j : nat) (b : Z) : Z :=
  if (i <? j)%nat then a else if (j <? i)%nat then b else a + b.

(** [fl] says what may occur: 0 only + and *, 1 also sines of what vanishes at 0, 2 also cosines
    of what vanishes at 0 *)
Inductive low {fl : nat} (x : string) : expr -> nat -> Z -> Prop :=
| low_var : low x (e_var x) 1 1
| low_lit z : 0 < z -> in_i64 z = true -> low x (e_of_i64 z) 0 z
| low_add p q i a j b : low x p i a -> low x q j b -> low x (e_add p q) (Nat.min i j) (combine i a j b)
| low_mul p q i a j b : low x p i a -> low x q j b -> low x (e_mul p q) (i + j) (a * b)
| low_sin p i a : (1 <= fl)%nat -> low x p (S i) a -> low x (e_sin p) (S i) a
| low_cos p i a : (2 <= fl)%nat -> low x p (S i) a -> low x (e_cos p) 0 1.

Lemma low_pos {fl} x p k c : @low fl x p k c -> 0 < c.
Proof.
  induction 1; try lia. unfold combine. destruct (i <? j)%nat, (j <? i)%nat; lia.
Qed.

Lemma low_exists x p : pos_poly x p -> exists k c, @low 0 x p k c.
Proof.
  induction 1 as [|z P I|a b _ (i & c & A) _ (j & d & B)|a b _ (i & c & A) _ (j & d & B)].
  - do 2 eexists. constructor.
  - do 2 eexists. constructor; assumption.
  - do 2 eexists. apply low_add; eassumption.
  - do 2 eexists. apply low_mul; eassumption.
Qed.

(** expressions that may contain literal zeros *)
Inductive term := TZ | TT (k : nat) (c : Z).
Definition tadd (s t : term) : term :=
  match s, t with TZ, t => t | s, TZ => s | TT i a, TT j b => TT (Nat.min i j) (combine i a j b) end.
Definition tmul (s t : term) : term :=
  match s, t with TT i a, TT j b => TT (i + j) (a * b) | _, _ => TZ end.

Definition zero_num (e : expr) : Prop := exists n, e = e_num n /\ api_number Debug n /\ sn_is_zero n = true.
Definition clean {fl} (x : string) (e : expr) (t : term) : Prop :=
  match t with TZ => zero_num e | TT k c => @low fl x e k c end.
Inductive gen {fl} (x : string) : expr -> term -> Prop :=
| gen_clean e t : @clean fl x e t -> @gen fl x e t
| gen_add p q s t : @gen fl x p s -> @gen fl x q t -> @gen fl x (e_add p q) (tadd s t)
| gen_mul p q s t : @gen fl x p s -> @gen fl x q t -> @gen fl x (e_mul p q) (tmul s t).

Lemma low_num {fl} x e k c : @low fl x e k c -> is_num e = true -> k = 0%nat /\ e = e_of_i64 c /\ 0 < c /\ in_i64 c = true.
Proof. inversion 1; subst; try discriminate. auto. Qed.
Lemma pos_not_zero z : 0 < z -> sn_is_zero (sn_of_i64 z) = false.
Proof. intros H. unfold sn_of_i64, sn_of_val, val_of_i64. destruct z; try lia. cbn. destruct p; reflexivity. Qed.
Lemma low_not_zero {fl} x e k c : @low fl x e k c -> is_zero e = false.
Proof. inversion 1; subst; try reflexivity. apply pos_not_zero; assumption. Qed.
Lemma one_lit z : 0 < z -> sn_is_one (sn_of_i64 z) = true -> z = 1.
Proof. intros H. unfold sn_of_i64, sn_of_val, val_of_i64. destruct z; try lia. cbn. destruct p; cbn; try discriminate; reflexivity. Qed.
Lemma low_one {fl} x e k c : @low fl x e k c -> is_one e = true -> k = 0%nat /\ c = 1.
Proof. inversion 1; subst; try discriminate. intros O. split; [reflexivity|]. apply one_lit; assumption. Qed.
Lemma clean_num_zero {fl} x e t : @clean fl x e t -> is_num e = false -> exists k c, t = TT k c /\ @low fl x e k c.
Proof.
  destruct t as [|k c]; cbn; [intros (n & -> & _); discriminate|eauto].
Qed.
Lemma clean_zero {fl} x e t : @clean fl x e t -> is_zero e = true -> t = TZ.
Proof. destruct t as [|k c]; [reflexivity|]. cbn. intros L Z. rewrite (low_not_zero _ _ _ _ L) in Z. discriminate. Qed.
Lemma clean_nonzero {fl} x e t : @clean fl x e t -> is_zero e = false -> exists k c, t = TT k c /\ @low fl x e k c.
Proof.
  destruct t as [|k c]; cbn; [intros (n & -> & _ & Z) H|eauto].
  change (is_zero (e_num n)) with (sn_is_zero n) in H. congruence.
Qed.

Lemma debug_add a b v : in_i64 a = true -> in_i64 b = true -> sn_add Debug (sn_of_i64 a) (sn_of_i64 b) = Ok v ->
  in_i64 (a + b) = true /\ v = sn_of_i64 (a + b).
Proof.
  intros Ha Hb H. pose proof (sn_add_int Debug a b Ha Hb) as K. unfold int_outcome in K.
  destruct (in_i64 (a + b)); [|congruence]. split; congruence.
Qed.
Lemma debug_mul a b v : in_i64 a = true -> in_i64 b = true -> sn_mul Debug (sn_of_i64 a) (sn_of_i64 b) = Ok v ->
  in_i64 (a * b) = true /\ v = sn_of_i64 (a * b).
Proof.
  intros Ha Hb H. pose proof (sn_mul_int Debug a b Ha Hb) as K. unfold int_outcome in K.
  destruct (in_i64 (a * b)); [|congruence]. split; congruence.
Qed.

Lemma clean_num {fl} x e t : @clean fl x e t -> is_num e = true ->
  (t = TZ /\ zero_num e) \/ (exists c, t = TT 0 c /\ e = e_of_i64 c /\ 0 < c /\ in_i64 c = true).
Proof.
  destruct t as [|k c]; cbn; intros H N; [left; auto|]. right. exists c.
  destruct (low_num _ _ _ _ H N) as (-> & -> & P & I). auto.
Qed.

Lemma zero_num_intro n : api_number Debug n -> sn_is_zero n = true -> zero_num (e_num n).
Proof. intros A Z. exists n. auto. Qed.

Lemma lit_api c : in_i64 c = true -> api_number Debug (sn_of_i64 c).
Proof. intros H. apply An_i64. exact H. Qed.

Lemma add_clean {fl} x l r s t z : @clean fl x l s -> @clean fl x r t -> add_eval_rule Debug [Ok l; Ok r] = Ok z -> @clean fl x z (tadd s t).
Proof.
  intros L R. unfold add_eval_rule, eval2. cbn [pop_unwrap pop bind rev app].
  destruct (is_num l && is_num r) eqn:N.
  - apply andb_prop in N as [N1 N2].
    destruct (clean_num _ _ _ L N1) as [(-> & p & -> & P1 & P2)|(a & -> & -> & P1 & P2)];
    destruct (clean_num _ _ _ R N2) as [(-> & q & -> & Q1 & Q2)|(b & -> & -> & Q1 & Q2)];
    cbn [to_smart_num_unwrap to_smart_num e_num e_of_i64 root bind tadd clean Nat.min]; intros H; apply bind_ok in H as (v & H & [= <-]).
    + destruct (c10_identity_on_identity Debug Debug p q sn_one P1 Q1 Q2 eq_refl) as (A & _). specialize (A P2).
      destruct A as [A _]. rewrite A in H. injection H as <-. apply zero_num_intro; assumption.
    + destruct (c10_identity Debug Debug (sn_of_i64 b) p sn_one (lit_api b Q2) P1 (An_one _) P2 eq_refl) as (A & _).
      rewrite A in H. injection H as <-. apply low_lit; assumption.
    + destruct (c10_identity Debug Debug (sn_of_i64 a) q sn_one (lit_api a P2) Q1 (An_one _) Q2 eq_refl) as (_ & A & _).
      rewrite (A (pos_not_zero a P1)) in H. injection H as <-. apply low_lit; assumption.
    + destruct (debug_add a b v P2 Q2 H) as (I & ->). unfold combine. cbn [Nat.ltb Nat.leb]. apply low_lit; [lia|exact I].
  - destruct (is_zero l) eqn:Zl.
    { intros [= <-]. rewrite (clean_zero _ _ _ L Zl). exact R. }
    destruct (is_zero r) eqn:Zr.
    { intros [= <-]. rewrite (clean_zero _ _ _ R Zr). destruct s; exact L. }
    intros [= <-]. destruct (clean_nonzero _ _ _ L Zl) as (i & a & -> & L'). destruct (clean_nonzero _ _ _ R Zr) as (j & b & -> & R').
    apply low_add; assumption.
Qed.

Lemma mul_clean {fl} x l r s t z : @clean fl x l s -> @clean fl x r t -> mul_eval_rule Debug [Ok l; Ok r] = Ok z -> @clean fl x z (tmul s t).
Proof.
  intros L R. unfold mul_eval_rule, eval2. cbn [pop_unwrap pop bind rev app].
  destruct (is_num l && is_num r) eqn:N.
  - apply andb_prop in N as [N1 N2].
    destruct (clean_num _ _ _ L N1) as [(-> & p & -> & P1 & P2)|(a & -> & -> & P1 & P2)];
    destruct (clean_num _ _ _ R N2) as [(-> & q & -> & Q1 & Q2)|(b & -> & -> & Q1 & Q2)];
    cbn [to_smart_num_unwrap to_smart_num e_num e_of_i64 root bind tmul clean Nat.add]; intros H; apply bind_ok in H as (v & H & [= <-]).
    + destruct (c10_annihilator Debug Debug q p Q1 P1 P2) as ((w & A & B) & _).
      rewrite A in H. injection H as ->. apply zero_num_intro; [apply (An_mul Debug p q); assumption|exact B].
    + destruct (c10_annihilator Debug Debug (sn_of_i64 b) p (lit_api b Q2) P1 P2) as ((w & A & B) & _).
      rewrite A in H. injection H as ->. apply zero_num_intro; [apply (An_mul Debug p (sn_of_i64 b)); [assumption|apply lit_api, Q2|assumption]|exact B].
    + destruct (c10_annihilator Debug Debug (sn_of_i64 a) q (lit_api a P2) Q1 Q2) as (_ & (w & A & B) & _).
      rewrite A in H. injection H as ->. apply zero_num_intro; [apply (An_mul Debug (sn_of_i64 a) q); [apply lit_api, P2|assumption|assumption]|exact B].
    + destruct (debug_mul a b v P2 Q2 H) as (I & ->). apply low_lit; [lia|exact I].
  - destruct (is_zero l || is_zero r) eqn:Z.
    { intros [= <-]. assert (tmul s t = TZ) as ->.
      { apply orb_prop in Z as [Z|Z]; [rewrite (clean_zero _ _ _ L Z); reflexivity|rewrite (clean_zero _ _ _ R Z); destruct s; reflexivity]. }
      apply zero_num_intro; [apply lit_api; reflexivity|reflexivity]. }
    apply orb_false_iff in Z as [Zl Zr].
    destruct (clean_nonzero _ _ _ L Zl) as (i & a & -> & L'). destruct (clean_nonzero _ _ _ R Zr) as (j & b & -> & R').
    destruct (is_one l) eqn:Ol.
    { intros [= <-]. destruct (low_one _ _ _ _ L' Ol) as (-> & ->). cbn [tmul clean Nat.add]. rewrite Z.mul_1_l. exact R'. }
    destruct (is_one r) eqn:Or.
    { intros [= <-]. destruct (low_one _ _ _ _ R' Or) as (-> & ->). cbn [tmul clean]. rewrite Nat.add_0_r, Z.mul_1_r. exact L'. }
    intros [= <-]. apply low_mul; assumption.
Qed.

Lemma low_S_const {fl} x e k c : @low fl x e (S k) c -> is_zero e || is_pi e = false.
Proof. intros L. rewrite (low_not_zero _ _ _ _ L). inversion L; subst; reflexivity. Qed.
Lemma low_agg {fl} x e k c : @low fl x e k c -> forall z, num_aggregate Debug e = Ok z -> @low fl x z k c.
Proof.
  induction 1 as [|v P I|p q i a j b _ IHp _ IHq|p q i a j b _ IHp _ IHq|p i a F _ IHp|p i a F _ IHp]; intros z H.
  - injection H as <-. constructor.
  - injection H as <-. constructor; assumption.
  - unfold e_add in H. rewrite agg_mk2 in H by reflexivity. apply bind_ok in H as (r & Hr & H). apply bind_ok in H as (l & Hl & H).
    exact (add_clean x l r (TT i a) (TT j b) z (IHp l Hl) (IHq r Hr) H).
  - unfold e_mul in H. rewrite agg_mk2 in H by reflexivity. apply bind_ok in H as (r & Hr & H). apply bind_ok in H as (l & Hl & H).
    exact (mul_clean x l r (TT i a) (TT j b) z (IHp l Hl) (IHq r Hr) H).
  - unfold e_sin in H. rewrite agg_mk1 in H by reflexivity. apply bind_ok in H as (l & Hl & H). specialize (IHp l Hl).
    apply rule1_ar in H; [|reflexivity]. destruct (is_zero l || is_pi l) eqn:B0; [rewrite (low_S_const _ _ _ _ IHp) in B0; discriminate B0|]. inversion H; subst; [congruence|].
    apply low_sin; assumption.
  - unfold e_cos in H. rewrite agg_mk1 in H by reflexivity. apply bind_ok in H as (l & Hl & H). specialize (IHp l Hl).
    apply rule1_ar in H; [|reflexivity]. destruct (is_zero l || is_pi l) eqn:B0; [rewrite (low_S_const _ _ _ _ IHp) in B0; discriminate B0|]. inversion H; subst; [congruence|].
    exact (low_cos x l i a F IHp).
Qed.

Lemma gen_agg {fl} x e t : @gen fl x e t -> forall z, num_aggregate Debug e = Ok z -> @clean fl x z t.
Proof.
  induction 1 as [e t C|p q s t _ IHp _ IHq|p q s t _ IHp _ IHq]; intros z H.
  - destruct t as [|k c]; [|exact (low_agg x e k c C z H)]. destruct C as (n & -> & A & Z). injection H as <-.
    apply zero_num_intro; assumption.
  - unfold e_add in H. rewrite agg_mk2 in H by reflexivity. apply bind_ok in H as (r & Hr & H). apply bind_ok in H as (l & Hl & H).
    exact (add_clean x l r s t z (IHp l Hl) (IHq r Hr) H).
  - unfold e_mul in H. rewrite agg_mk2 in H by reflexivity. apply bind_ok in H as (r & Hr & H). apply bind_ok in H as (l & Hl & H).
    exact (mul_clean x l r s t z (IHp l Hl) (IHq r Hr) H).
Qed.

(** the derivative lowers the lowest term *)
Definition lowered {fl} (x : string) (d : expr) (k : nat) (c : Z) : Prop :=
  match k with O => exists t, @clean fl x d t | S j => @clean fl x d (TT j (Z.of_nat k * c)) end.

Lemma low_mono {fl} {fl'} x e k c : (fl <= fl')%nat -> @low fl x e k c -> @low fl' x e k c.
Proof.
  intros L. induction 1 as [|v P I|p q i a j b _ IHp _ IHq|p q i a j b _ IHp _ IHq|p i a F _ IHp|p i a F _ IHp];
    [apply low_var|apply low_lit; assumption|apply low_add; assumption|apply low_mul; assumption|apply low_sin; [lia|assumption]|].
  apply (@low_cos fl' x p i a); [lia|exact IHp].
Qed.
Lemma low_deriv {fl} x e k c : (fl <= 1)%nat -> @low fl x e k c -> forall d, deriv Debug x e = Ok d -> @lowered (fl + fl) x d k c.
Proof.
  intros FL. induction 1 as [|v P I|p q i a j b Lp IHp Lq IHq|p q i a j b Lp IHp Lq IHq|p i a F Lp IHp|p i a F Lp IHp]; intros d H.
  - unfold e_var in H. rewrite deriv_var, String.eqb_refl in H. injection H as <-. apply (low_lit x 1); reflexivity.
  - injection H as <-. exists TZ. apply zero_num_intro; [apply lit_api; reflexivity|reflexivity].
  - unfold e_add in H. rewrite deriv_mk2 in H by reflexivity. apply bind_ok in H as (dq & Hq & H). apply bind_ok in H as (dp & Hp & H).
    specialize (IHp dp Hp). specialize (IHq dq Hq). unfold raw2 in H.
    destruct i as [|i]; [|destruct j as [|j]]; cbn [Nat.min lowered] in *.
    + destruct IHp as (s & IHp). assert (exists t, @clean (fl + fl) x dq t) as (t & IHq') by (destruct j; [exact IHq|exists (TT j (Z.of_nat (S j) * b)); exact IHq]).
      exists (tadd s t). exact (gen_agg x _ _ (gen_add x dp dq s t (gen_clean _ _ _ IHp) (gen_clean _ _ _ IHq')) d H).
    + destruct IHq as (t & IHq). eexists.
      exact (gen_agg x _ _ (gen_add x dp dq _ t (gen_clean _ _ _ IHp) (gen_clean _ _ _ IHq)) d H).
    + pose proof (gen_agg x _ _ (gen_add x dp dq _ _ (gen_clean _ _ _ IHp) (gen_clean _ _ _ IHq)) d H) as C.
      cbn [tadd] in C. replace (Z.of_nat (S (Nat.min i j)) * combine (S i) a (S j) b)
        with (combine i (Z.of_nat (S i) * a) j (Z.of_nat (S j) * b)); [exact C|].
      unfold combine. change (S i <? S j)%nat with (i <? j)%nat. change (S j <? S i)%nat with (j <? i)%nat.
      destruct (Nat.ltb_spec i j) as [L|L]; [rewrite Nat.min_l by lia; reflexivity|].
      destruct (Nat.ltb_spec j i) as [L'|L']; [rewrite Nat.min_r by lia; reflexivity|].
      assert (i = j) as -> by lia. rewrite Nat.min_id. ring.
  - unfold e_mul in H. rewrite deriv_mk2 in H by reflexivity. apply bind_ok in H as (dq & Hq & H). apply bind_ok in H as (dp & Hp & H).
    specialize (IHp dp Hp). specialize (IHq dq Hq). unfold raw2 in H.
    assert (@gen (fl + fl) x p (TT i a)) as Gp by (apply gen_clean; exact (@low_mono fl (fl + fl) x _ _ _ ltac:(lia) Lp)).
    assert (@gen (fl + fl) x q (TT j b)) as Gq by (apply gen_clean; exact (@low_mono fl (fl + fl) x _ _ _ ltac:(lia) Lq)).
    assert (forall s t, @clean (fl + fl) x dp s -> @clean (fl + fl) x dq t -> @clean (fl + fl) x d (tadd (tmul s (TT j b)) (tmul (TT i a) t))) as C.
    { intros s t Cs Ct. apply (gen_agg x _ _ (gen_add x _ _ _ _ (gen_mul x dp q _ _ (gen_clean _ _ _ Cs) Gq)
        (gen_mul x p dq _ _ Gp (gen_clean _ _ _ Ct))) d H). }
    destruct i as [|i]; destruct j as [|j]; cbn [Nat.add lowered] in *.
    + destruct IHp as (s & IHp), IHq as (t & IHq). eexists. exact (C s t IHp IHq).
    + destruct IHp as (s & IHp). specialize (C s _ IHp IHq). 
      destruct s as [|k c]; cbn [tmul tadd Nat.add] in C.
      * replace (Z.of_nat (S j) * (a * b)) with (a * (Z.of_nat (S j) * b)) by ring. exact C.
      * rewrite Nat.min_r in C by lia. unfold combine in C.
        replace (k + S j <? j)%nat with false in C by (symmetry; apply Nat.ltb_ge; lia).
        replace (j <? k + S j)%nat with true in C by (symmetry; apply Nat.ltb_lt; lia).
        replace (Z.of_nat (S j) * (a * b)) with (a * (Z.of_nat (S j) * b)) by ring. exact C.
    + destruct IHq as (t & IHq). specialize (C _ t IHp IHq). rewrite Nat.add_0_r.
      destruct t as [|k c]; cbn [tmul tadd] in C; rewrite Nat.add_0_r in C.
      * replace (Z.of_nat (S i) * (a * b)) with (Z.of_nat (S i) * a * b) by ring. exact C.
      * rewrite Nat.min_l in C by lia. unfold combine in C.
        replace (i <? S i + k)%nat with true in C by (symmetry; apply Nat.ltb_lt; lia).
        replace (Z.of_nat (S i) * (a * b)) with (Z.of_nat (S i) * a * b) by ring. exact C.
    + specialize (C _ _ IHp IHq). cbn [tmul tadd] in C.
      replace (S i + j)%nat with (i + S j)%nat in C by lia. rewrite Nat.min_id in C. unfold combine in C.
      rewrite Nat.ltb_irrefl in C.
      replace (Z.of_nat (S (i + S j)) * (a * b)) with (Z.of_nat (S i) * a * b + a * (Z.of_nat (S j) * b)) by nia. exact C.
  - unfold e_sin in H. rewrite deriv_mk1 in H by reflexivity. apply bind_ok in H as (dp & Hp & H). specialize (IHp dp Hp). unfold raw1 in H.
    cbn [lowered] in IHp |- *. 
    assert (@low (fl + fl) x (e_cos p) 0 1) as Cp by exact (@low_cos (fl + fl) x p i a ltac:(lia) (@low_mono fl (fl + fl) x _ _ _ ltac:(lia) Lp)).
    pose proof (gen_agg x _ _ (gen_mul x _ _ _ _ (gen_clean x _ (TT 0 1) Cp) (gen_clean _ _ _ IHp)) d H) as C.
    cbn [tmul Nat.add] in C. rewrite Z.mul_1_l in C. exact C.
  - exfalso. lia.
Qed.

(** the limit of a positive polynomial at 0 *)
Definition low_limit (k : nat) (c : Z) (y : lres) : Prop :=
  match k with O => in_i64 c = true /\ y = ROk (Normal (e_of_i64 c)) | S _ => y = ROk Infinitesimal end.

Lemma lit_add (x : string) a b w : 0 < a -> 0 < b -> in_i64 a = true -> in_i64 b = true ->
  num_aggregate Debug (e_add (e_of_i64 a) (e_of_i64 b)) = Ok w ->
  in_i64 (combine 0 a 0 b) = true /\ @ROk lexpr no_limit (Normal w) = ROk (Normal (e_of_i64 (combine 0 a 0 b))).
Proof.
  intros Pa Pb Ia Ib H.
  assert (@low 0 x (e_add (e_of_i64 a) (e_of_i64 b)) 0 (combine 0 a 0 b)) as L.
  { apply (low_add x _ _ 0 a 0 b); apply low_lit; assumption. }
  pose proof (low_agg x _ _ _ L w H) as L'.
  assert (is_num w = true) as N.
  { unfold e_add in H. rewrite agg_mk2 in H by reflexivity. cbn in H. apply bind_ok in H as (v & _ & [= <-]). reflexivity. }
  destruct (low_num _ _ _ _ L' N) as (_ & -> & _ & J). split; [exact J|reflexivity].
Qed.
Lemma lit_mul (x : string) a b w : 0 < a -> 0 < b -> in_i64 a = true -> in_i64 b = true ->
  num_aggregate Debug (e_mul (e_of_i64 a) (e_of_i64 b)) = Ok w ->
  in_i64 (a * b) = true /\ @ROk lexpr no_limit (Normal w) = ROk (Normal (e_of_i64 (a * b))).
Proof.
  intros Pa Pb Ia Ib H.
  assert (@low 0 x (e_mul (e_of_i64 a) (e_of_i64 b)) 0 (a * b)) as L.
  { apply (low_mul x _ _ 0 a 0 b); apply low_lit; assumption. }
  pose proof (low_agg x _ _ _ L w H) as L'.
  assert (is_num w = true) as N.
  { unfold e_mul in H. rewrite agg_mk2 in H by reflexivity. cbn in H. apply bind_ok in H as (v & _ & [= <-]). reflexivity. }
  destruct (low_num _ _ _ _ L' N) as (_ & -> & _ & J). split; [exact J|reflexivity].
Qed.
Lemma low_err k c (r : res lres) er : (forall y, r = Ok y -> low_limit k c y) -> r <> Ok (RErr er).
Proof. intros H E. specialize (H _ E). destruct k; cbn in H; [destruct H as [_ H]|]; discriminate H. Qed.

(** at 0, the parts are numbers, and 0 if they vanish there *)
Lemma low_closed {fl} x to : zero_num to -> forall e k c, @low fl x e k c -> forall z, num_aggregate Debug (subst x to e) = Ok z ->
  exists n, z = e_num n /\ api_number Debug n /\ ((1 <= k)%nat -> sn_is_zero n = true).
Proof.
  intros (t0 & -> & A0 & Z0). induction 1 as [|v P I|p q i a j b Lp IHp Lq IHq|p q i a j b Lp IHp Lq IHq|p i a F Lp IHp|p i a F Lp IHp]; intros z H.
  - cbn [subst e_var] in H. rewrite String.eqb_refl in H. injection H as <-. exists t0. auto.
  - injection H as <-. exists (sn_of_i64 v). split; [reflexivity|]. split; [apply lit_api, I|lia].
  - unfold e_add in H. rewrite subst_mk2, agg_mk2 in H by reflexivity. apply bind_ok in H as (r & Hr & H). apply bind_ok in H as (l & Hl & H).
    destruct (IHp l Hl) as (n1 & -> & A1 & Z1), (IHq r Hr) as (n2 & -> & A2 & Z2). cbn -[sn_add] in H. apply bind_ok in H as (v & H & [= <-]).
    exists v. split; [reflexivity|]. split; [exact (An_add Debug n1 n2 v A1 A2 H)|]. intros M.
    destruct (c10_identity_on_identity Debug Debug n1 n2 sn_one A1 A2 (Z2 ltac:(lia)) eq_refl) as (A & _). destruct (A (Z1 ltac:(lia))) as (A' & _).
    rewrite A' in H. injection H as <-. apply Z2. lia.
  - unfold e_mul in H. rewrite subst_mk2, agg_mk2 in H by reflexivity. apply bind_ok in H as (r & Hr & H). apply bind_ok in H as (l & Hl & H).
    destruct (IHp l Hl) as (n1 & -> & A1 & Z1), (IHq r Hr) as (n2 & -> & A2 & Z2). cbn -[sn_mul] in H. apply bind_ok in H as (v & H & [= <-]).
    exists v. split; [reflexivity|]. split; [exact (An_mul Debug n1 n2 v A1 A2 H)|]. intros M.
    destruct (Nat.le_gt_cases 1 i) as [K|K].
    + destruct (c10_annihilator Debug Debug n2 n1 A2 A1 (Z1 K)) as ((w & A & B) & _). rewrite A in H. injection H as <-. exact B.
    + destruct (c10_annihilator Debug Debug n1 n2 A1 A2 (Z2 ltac:(lia))) as (_ & (w & A & B) & _). rewrite A in H. injection H as <-. exact B.
  - unfold e_sin in H. rewrite subst_mk1, agg_mk1 in H by reflexivity. apply bind_ok in H as (l & Hl & H).
    destruct (IHp l Hl) as (n1 & -> & A1 & Z1). cbn in H. rewrite (Z1 ltac:(lia)) in H. injection H as <-.
    exists sn_zero. split; [reflexivity|]. split; [exact (lit_api 0 eq_refl)|reflexivity].
  - unfold e_cos in H. rewrite subst_mk1, agg_mk1 in H by reflexivity. apply bind_ok in H as (l & Hl & H).
    destruct (IHp l Hl) as (n1 & -> & A1 & Z1). cbn in H. rewrite (Z1 ltac:(lia)) in H. injection H as <-.
    exists sn_one. split; [reflexivity|]. split; [exact (lit_api 1 eq_refl)|lia].
Qed.

Lemma low_lim {fl} x to ord : is_zero to = true -> ((1 <= fl)%nat -> zero_num to) -> forall e k c, @low fl x e k c -> forall fuel y,
  limit_var fuel Debug x to ord e = Ok y -> low_limit k c y.
Proof.
  intros Z Z'. induction 1 as [|v P I|p q i a j b Lp IHp Lq IHq|p q i a j b Lp IHp Lq IHq|p i a F Lp IHp|p i a F Lp IHp]; intros fuel y H;
    destruct fuel as [|fuel]; try discriminate H; cbn [limit_var] in H.
  - unfold limit_rule in H. cbn [root e_var] in H. rewrite String.eqb_refl, Z in H. injection H as <-. reflexivity.
  - injection H as <-. split; [exact I|reflexivity].
  - unfold limit_rule in H. unfold e_add in H. cbn [root mk2] in H. rewrite descriptor_gen in H. fold (e_add p q) in H.
    unfold add_limit_expr_rule in H.
    apply qbind_ok' in H as [(z & Hz & H)|(er & Hz & ->)]; cbn in Hz;
    (apply qbind_ok' in Hz as [(zq & Eq & Hz)|(e1 & Eq & Hz)]; [|exfalso; revert Eq; apply (low_err j b), IHq]);
    (apply qbind_ok' in Hz as [(zp & Ep & Hz)|(e1 & Ep & Hz)]; [|exfalso; revert Ep; apply (low_err i a), IHp]);
    apply IHq in Eq; apply IHp in Ep; destruct i as [|i]; destruct j as [|j]; cbn [low_limit Nat.min Nat.add] in *;
    repeat match goal with K : _ /\ ROk _ = ROk _ |- _ => destruct K as [? K] end; injection Eq as ->; injection Ep as ->;
    cbn [l_add] in Hz; try discriminate Hz; injection Hz as <-; cbv iota in H; try (injection H as <-; (reflexivity || (split; [assumption|reflexivity])));
    try (apply bind_ok in H as (w & H & [= <-])).
    + apply (lit_add x a b w); try assumption; [exact (low_pos _ _ _ _ Lp)|exact (low_pos _ _ _ _ Lq)].
  - unfold limit_rule in H. unfold e_mul in H. cbn [root mk2] in H. rewrite descriptor_gen in H. fold (e_mul p q) in H.
    unfold mul_limit_expr_rule in H.
    apply qbind_ok' in H as [(z & Hz & H)|(er & Hz & ->)]; cbn in Hz;
    (apply qbind_ok' in Hz as [(zq & Eq & Hz)|(e1 & Eq & Hz)]; [|exfalso; revert Eq; apply (low_err j b), IHq]);
    (apply qbind_ok' in Hz as [(zp & Ep & Hz)|(e1 & Ep & Hz)]; [|exfalso; revert Ep; apply (low_err i a), IHp]);
    apply IHq in Eq; apply IHp in Ep; destruct i as [|i]; destruct j as [|j]; cbn [low_limit Nat.min Nat.add] in *;
    repeat match goal with K : _ /\ ROk _ = ROk _ |- _ => destruct K as [? K] end; injection Eq as ->; injection Ep as ->;
    cbn [l_mul] in Hz; try discriminate Hz; injection Hz as <-; cbv iota in H; try (injection H as <-; (reflexivity || (split; [assumption|reflexivity])));
    try (apply bind_ok in H as (w & H & [= <-])).
    + apply (lit_mul x a b w); try assumption; [exact (low_pos _ _ _ _ Lp)|exact (low_pos _ _ _ _ Lq)].
  - unfold limit_rule in H. unfold e_sin in H. cbn [root mk1] in H. rewrite descriptor_gen in H. fold (e_sin p) in H.
    unfold sin_limit_expr_rule in H. rewrite Z in H. cbn in H. injection H as <-. reflexivity.
  - unfold limit_rule in H. unfold e_cos in H. cbn [root mk1] in H. rewrite descriptor_gen in H. fold (e_cos p) in H.
    unfold cos_limit_expr_rule, subst_limit in H. 
    assert (forall z, num_aggregate Debug (subst x to (e_cos p)) = Ok z -> z = e_one) as C.
    { intros z Hz. unfold e_cos in Hz. rewrite subst_mk1, agg_mk1 in Hz by reflexivity. apply bind_ok in Hz as (l & Hl & Hz).
      destruct (low_closed x to (Z' ltac:(lia)) p (S i) a Lp l Hl) as (n1 & -> & A1 & Z1). cbn in Hz. rewrite (Z1 ltac:(lia)) in Hz. injection Hz as <-. reflexivity. }
    destruct (num_aggregate Debug (subst x to (e_cos p))) as [z| | |] eqn:E; try discriminate H. rewrite (C z eq_refl) in H.
    cbn in H. injection H as <-. split; reflexivity.
Qed.

(** what the loop returns *)
Definition loop_answer (i : nat) (a : Z) (j : nat) (b : Z) (n : nat) (y : lres) : Prop :=
  if (n <=? Nat.min i j)%nat then y = lerr
  else if (j <? i)%nat then y = ROk Infinitesimal
  else if (i <? j)%nat then y = ROk Infinity
  else exists c d, y = ROk (Normal (e_div (e_of_i64 c) (e_of_i64 d))) /\
    0 < c /\ 0 < d /\ in_i64 c = true /\ in_i64 d = true /\ c * b = d * a.

Lemma loop_lh x to ord : is_zero to = true -> forall fuel n fl l r i a j b y, ((1 <= fl)%nat -> zero_num to) ->
  fl = 0%nat \/ (fl = 1 /\ Nat.min i j <= 1)%nat \/ Nat.min i j = 0%nat -> @low fl x l i a -> @low fl x r j b ->
  div_loop Debug x (limit_var fuel Debug x to ord) n l r = Ok y -> loop_answer i a j b n y.
Proof.
  intros Z fuel. induction n as [|n IH]; intros fl l r i a j b y Z' G L R H; [injection H as <-; reflexivity|].
  cbn [div_loop] in H. apply bind_ok in H as (yl & El & H). pose proof (low_lim x to ord Z Z' _ _ _ L _ _ El) as Al.
  assert (exists zl, yl = ROk zl) as (zl & ->) by (destruct i; [destruct Al as [_ ->]|rewrite Al]; eauto).
  apply bind_ok in H as (yr & Er & H). pose proof (low_lim x to ord Z Z' _ _ _ R _ _ Er) as Ar.
  assert (exists zr, yr = ROk zr) as (zr & ->) by (destruct j; [destruct Ar as [_ ->]|rewrite Ar]; eauto).
  pose proof (low_pos _ _ _ _ L) as Pa. pose proof (low_pos _ _ _ _ R) as Pb.
  unfold loop_answer. destruct i as [|i]; destruct j as [|j]; cbn [low_limit] in Al, Ar.
  - destruct Al as [Ia [= ->]], Ar as [Ib [= ->]]. cbn [l_div] in H. injection H as <-.
    cbn [Nat.min Nat.leb Nat.ltb]. exists a, b. repeat (split; [auto; fail|]). ring.
  - destruct Al as [Ia [= ->]]. injection Ar as ->. cbn [l_div] in H.
    change (is_zero (e_of_i64 a)) with (sn_is_zero (sn_of_i64 a)) in H. rewrite (pos_not_zero a Pa) in H. injection H as <-.
    reflexivity.
  - destruct Ar as [Ib [= ->]]. injection Al as ->. cbn [l_div] in H.
    change (is_zero (e_of_i64 b)) with (sn_is_zero (sn_of_i64 b)) in H. rewrite (pos_not_zero b Pb) in H. injection H as <-.
    reflexivity.
  - injection Al as ->. injection Ar as ->. cbn [l_div lerr] in H.
    apply bind_ok in H as (dl & Hl & H). apply bind_ok in H as (dr & Hr & H).
    assert (fl <= 1)%nat as FL by (cbn [Nat.min] in G; lia).
    pose proof (low_deriv x l _ _ FL L dl Hl) as Cl. pose proof (low_deriv x r _ _ FL R dr Hr) as Cr. cbn [lowered clean] in Cl, Cr.
    assert (fl + fl = 0 \/ (fl + fl = 1 /\ Nat.min i j <= 1) \/ Nat.min i j = 0)%nat as G' by (cbn [Nat.min] in G; lia).
    pose proof (IH (fl + fl)%nat _ _ _ _ _ _ _ (fun P => Z' ltac:(lia)) G' Cl Cr H) as A. unfold loop_answer in A.
    change (Nat.min (S i) (S j)) with (S (Nat.min i j)). change (S n <=? S (Nat.min i j))%nat with (n <=? Nat.min i j)%nat.
    change (S j <? S i)%nat with (j <? i)%nat. change (S i <? S j)%nat with (i <? j)%nat.
    destruct (n <=? Nat.min i j)%nat; [exact A|]. destruct (Nat.ltb_spec j i); [exact A|]. destruct (Nat.ltb_spec i j); [exact A|].
    destruct A as (c & d & -> & Pc & Pd & Ic & Id & E). exists c, d. repeat (split; [auto; fail|]).
    assert (i = j) as -> by lia. nia.
Qed.

Open Scope R_scope.

(** values of positive polynomials *)
Lemma low_defined {fl} x e k c : @low fl x e k c -> forall rho t, exists v, eval (upd rho x t) e = Some v.
Proof.
  induction 1 as [|v P I|p q i a j b _ IHp _ IHq|p q i a j b _ IHp _ IHq|p i a F _ IHp|p i a F _ IHp]; intros rho t.
  - exists t. unfold e_var. rewrite eval_var, upd_same. reflexivity.
  - exists (IZR v). unfold e_of_i64, e_num. rewrite eval_num. apply num_R_int.
  - destruct (IHp rho t) as (u & Hu), (IHq rho t) as (w & Hw). exists (u + w). unfold e_add. rewrite eval_mk2, Hu, Hw. reflexivity.
  - destruct (IHp rho t) as (u & Hu), (IHq rho t) as (w & Hw). exists (u * w). unfold e_mul. rewrite eval_mk2, Hu, Hw. reflexivity.
  - destruct (IHp rho t) as (u & Hu). exists (sin u). unfold e_sin. rewrite eval_mk1, Hu. reflexivity.
  - destruct (IHp rho t) as (u & Hu). exists (cos u). unfold e_cos. rewrite eval_mk1, Hu. reflexivity.
Qed.

Lemma low_eval {fl} x e k c rho t : @low fl x e k c -> eval (upd rho x t) e = Some (evalx rho x e t).
Proof. intros L. destruct (low_defined x e k c L rho t) as (v & E). unfold evalx. rewrite E. reflexivity. Qed.

Lemma lim_pow n : filterlim (fun t => t ^ n) (near 0) (locally (0 ^ n)).
Proof.
  induction n as [|n IH]; cbn [pow].
  - apply filterlim_const.
  - apply (lim_mult (near 0) (fun t => t) (fun t => t ^ n)); [apply near_id|exact IH].
Qed.

Lemma lim_pow_zero n : filterlim (fun t => t ^ S n) (near 0) (locally 0).
Proof. pose proof (lim_pow (S n)) as H. rewrite pow_ne_zero in H by discriminate. exact H. Qed.

(** a higher power tends to 0 when divided by a lower one *)
Lemma lim_shift (f : R -> R) i j l : (i < j)%nat -> filterlim (fun t => f t / t ^ j) (near 0) (locally l) ->
  filterlim (fun t => f t / t ^ i) (near 0) (locally 0).
Proof.
  intros L H. assert (exists n, j = (i + S n)%nat) as (n & ->) by (exists (j - i - 1)%nat; lia).
  apply (lim_ext (near 0) (fun t => f t / t ^ (i + S n) * t ^ S n)).
  - generalize near_nonzero. apply filter_imp. intros t T. rewrite pow_add. field. split; apply pow_nonzero; exact T.
  - assert (filterlim (fun t => f t / t ^ (i + S n) * t ^ S n) (near 0) (locally (l * 0))) as K.
    { apply (lim_mult (near 0)); [exact H|apply lim_pow_zero]. }
    rewrite Rmult_0_r in K. exact K.
Qed.

Definition lowest_at (x : string) (e : expr) (k : nat) (c : R) (rho : string -> R) : Prop :=
  0 < c /\ filterlim (fun t => evalx rho x e t / t ^ k) (near 0) (locally c).
Lemma lowest_at_nonzero x e k c rho : lowest_at x e k c rho -> near 0 (fun t => evalx rho x e t <> 0).
Proof.
  intros (P & H).
  assert (near 0 (fun t => evalx rho x e t / t ^ k <> 0)) as K.
  { apply (H (fun y => y <> 0)). exists (mkposreal c P). intros y B E. subst y.
    change (Rabs (0 - c) < c) in B. rewrite Rabs_minus_sym, Rminus_0_r, Rabs_pos_eq in B by lra. lra. }
  generalize (filter_and _ _ K near_nonzero). apply filter_imp. intros t (A & B) Z. apply A. rewrite Z. unfold Rdiv. ring.
Qed.
Lemma lowest_nonzero x e k c rho : lowest x e k c -> near 0 (fun t => evalx rho x e t <> 0).
Proof. intros (P & H). exact (lowest_at_nonzero x e k c rho (conj P (H rho))). Qed.

Lemma lim_low0 (f : R -> R) k l : filterlim (fun t => f t / t ^ S k) (near 0) (locally l) -> filterlim f (near 0) (locally 0).
Proof.
  intros H. apply (lim_ext (near 0) (fun t => f t / t ^ 0)); [apply filter_forall; intros t; cbn [pow]; field|].
  exact (lim_shift f 0 (S k) l ltac:(lia) H).
Qed.
Lemma lim_sinc (f : R -> R) : filterlim f (near 0) (locally 0) -> near 0 (fun t => f t <> 0) -> filterlim (fun t => sin (f t) / f t) (near 0) (locally 1).
Proof.
  intros H N. apply (filterlim_comp _ _ _ f (fun y => sin y / y) (near 0) (locally' 0) (locally 1)); [|exact is_lim_sinc_0].
  intros P (eps & K). unfold filtermap. assert (near 0 (fun t => ball 0 eps (f t))) as H' by exact (H _ (locally_ball 0 eps)). generalize (filter_and _ _ H' N). apply filter_imp. intros t (A & B). exact (K _ A B).
Qed.
Lemma low_lowest {fl} x e k c : @low fl x e k c -> lowest x e k (IZR c).
Proof.
  intros L. split; [apply IZR_lt, (low_pos _ _ _ _ L)|]. intros rho.
  induction L as [|v P I|p q i a j b Lp IHp Lq IHq|p q i a j b Lp IHp Lq IHq|p i a F Lp IHp|p i a F Lp IHp].
  - apply (lim_ext (near 0) (fun _ => 1)).
    + generalize near_nonzero. apply filter_imp. intros t T. unfold evalx, e_var. rewrite eval_var, upd_same. cbn [pow]. field. exact T.
    + apply filterlim_const.
  - apply (lim_ext (near 0) (fun _ => IZR v)).
    + apply filter_forall. intros t. unfold evalx, e_of_i64, e_num. rewrite eval_num, num_R_int. cbn [pow]. field.
    + apply filterlim_const.
  - assert (filterlim (fun t => evalx rho x p t / t ^ Nat.min i j + evalx rho x q t / t ^ Nat.min i j) (near 0) (locally (IZR (combine i a j b)))) as H.
    { unfold combine. destruct (Nat.ltb_spec i j) as [L|L]; [|destruct (Nat.ltb_spec j i) as [L'|L']].
      - rewrite Nat.min_l by lia. replace (IZR a) with (IZR a + 0) by ring. apply (lim_plus (near 0)); [exact IHp|].
        exact (lim_shift _ i j _ L IHq).
      - rewrite Nat.min_r by lia. replace (IZR b) with (0 + IZR b) by ring. apply (lim_plus (near 0)); [|exact IHq].
        exact (lim_shift _ j i _ L' IHp).
      - assert (i = j) as -> by lia. rewrite Nat.min_id, plus_IZR. apply (lim_plus (near 0)); assumption. }
    revert H. apply (lim_ext (near 0)). generalize near_nonzero. apply filter_imp. intros t T.
    unfold evalx at 3, e_add. rewrite eval_mk2, (low_eval _ _ _ _ rho t Lp), (low_eval _ _ _ _ rho t Lq). cbn [obind ev2].
    field. apply pow_nonzero, T.
  - rewrite mult_IZR.
    apply (lim_ext (near 0) (fun t => evalx rho x p t / t ^ i * (evalx rho x q t / t ^ j))).
    + generalize near_nonzero. apply filter_imp. intros t T.
      unfold evalx at 3, e_mul. rewrite eval_mk2, (low_eval _ _ _ _ rho t Lp), (low_eval _ _ _ _ rho t Lq). cbn [obind ev2].
      rewrite pow_add. field. split; apply pow_nonzero, T.
    + apply (lim_mult (near 0)); assumption.
  - assert (lowest_at x p (S i) (IZR a) rho) as Hp by (split; [apply IZR_lt, (low_pos _ _ _ _ Lp)|exact IHp]).
    pose proof (lowest_at_nonzero _ _ _ _ _ Hp) as N. rewrite <- (Rmult_1_l (IZR a)).
    apply (lim_ext (near 0) (fun t => sin (evalx rho x p t) / evalx rho x p t * (evalx rho x p t / t ^ S i))).
    + generalize (filter_and _ _ near_nonzero N). apply filter_imp. intros t (T & NT).
      unfold evalx at 4, e_sin. rewrite eval_mk1, (low_eval _ _ _ _ rho t Lp). cbn [obind ev1]. field. split; [apply pow_nonzero, T|exact NT].
    + apply (lim_mult (near 0)); [|exact IHp]. apply lim_sinc; [exact (lim_low0 _ i _ IHp)|exact N].
  - apply (lim_ext (near 0) (fun t => cos (evalx rho x p t))).
    + apply filter_forall. intros t. unfold evalx at 2, e_cos. rewrite eval_mk1, (low_eval _ _ _ _ rho t Lp). cbn [obind ev1 pow]. field.
    + rewrite <- cos_0. apply (filterlim_comp _ _ _ (evalx rho x p) cos (near 0) (locally 0) (locally (cos 0))); [exact (lim_low0 _ i _ IHp)|].
      apply continuous_cos.
Qed.

Lemma lowest_unique x e k c j d : lowest x e k c -> lowest x e j d -> k = j /\ c = d.
Proof.
  intros (Pc & Hc) (Pd & Hd). specialize (Hc (fun _ => 0)). specialize (Hd (fun _ => 0)).
  destruct (Nat.lt_trichotomy k j) as [L|[->|L]].
  - pose proof (lim_unique _ _ _ _ Hc (lim_shift _ _ _ _ L Hd)). lra.
  - split; [reflexivity|exact (lim_unique _ _ _ _ Hc Hd)].
  - pose proof (lim_unique _ _ _ _ Hd (lim_shift _ _ _ _ L Hc)). lra.
Qed.

(** ** C80 *)
(** every positive polynomial has a lowest term *)
Theorem c80_lowest_exists x p : pos_poly x p -> exists k c, lowest x p k c.
Proof. intros H. destruct (low_exists x p H) as (k & c & L). exists k, (IZR c). exact (low_lowest x p k c L). Qed.
Print Assumptions c80_lowest_exists.

Lemma lh_core fl x p q i a j b to ord fuel y : @low fl x p i a -> @low fl x q j b ->
  ((1 <= fl)%nat -> zero_num to) -> fl = 0%nat \/ (fl = 1 /\ Nat.min i j <= 1)%nat \/ Nat.min i j = 0%nat ->
  is_zero to = true -> (0 <= ord)%Z ->
  limit fuel Debug (e_div p q) (e_var x) to ord = Ok y ->
  ((ord < Z.of_nat (Nat.min i j))%Z -> y = RErr NoValidLimitFound) /\
  ((Z.of_nat (Nat.min i j) <= ord)%Z ->
     ((j < i)%nat -> y = ROk Infinitesimal) /\
     ((i < j)%nat -> y = ROk Infinity) /\
     (i = j -> exists n r, y = ROk (Normal (e_num n)) /\ api_number Debug n /\ exact_Q n = Some r /\ Q2R r = IZR a / IZR b)).
Proof.
  intros Lp Lq Z' G Z O H.
  unfold limit in H. cbn [to_variable e_var root] in H. destruct fuel as [|fuel]; [discriminate|]. cbn [limit_var] in H.
  unfold limit_rule in H. unfold e_div in H. cbn [root mk2] in H. rewrite descriptor_gen in H. unfold div_limit_expr_rule in H.
  cbn [child mk2] in H.
  assert (forall w, (let* (r, rest) := pop_unwrap [p; q] in let* (l, _) := pop_unwrap rest in
     div_loop Debug x (limit_var fuel Debug x to ord) (Z.to_nat (ord + 1)) l r)%res = Ok w ->
     loop_answer i a j b (Z.to_nat (ord + 1)) w) as A.
  { intros w Hw. cbn [pop_unwrap pop bind rev app] in Hw. exact (loop_lh x to ord Z fuel _ fl _ _ _ _ _ _ _ Z' G Lp Lq Hw). }
  unfold loop_answer in A.
  apply qbind_ok' in H as [(z & Hz & H)|(er & Hz & ->)]; apply A in Hz; clear A; (split; intros B).
  - replace (Z.to_nat (ord + 1) <=? Nat.min i j)%nat with true in Hz by (symmetry; apply Nat.leb_le; lia). discriminate Hz.
  - replace (Z.to_nat (ord + 1) <=? Nat.min i j)%nat with false in Hz by (symmetry; apply Nat.leb_gt; lia).
    destruct (Nat.ltb_spec j i) as [L|L]; [|destruct (Nat.ltb_spec i j) as [L'|L']].
    + injection Hz as ->. injection H as <-. split; [reflexivity|]. split; intros; lia.
    + injection Hz as ->. injection H as <-. split; [intros; lia|]. split; [reflexivity|intros; lia].
    + destruct Hz as (u & v & [= ->] & Pu & Pv & Iu & Iv & E). cbv iota in H. apply bind_ok in H as (w & H & [= <-]).
      split; [intros; lia|]. split; [intros; lia|]. intros _.
      unfold e_div in H. rewrite agg_mk2 in H by reflexivity. cbn in H. apply bind_ok in H as (n & H & [= <-]).
      destruct (c70_debug_exact Debug (sn_of_i64 u) (sn_of_i64 v) (inject_Z u) (inject_Z v)) as (_ & K & _);
        try (apply An_i64; assumption); try reflexivity.
      assert (~ (inject_Z v == 0)%Q) as NZ by (unfold Qeq; cbn; lia).
      destruct (K n NZ H) as (r & Hr & R). exists n, r. split; [reflexivity|].
      split; [exact (An_div Debug _ _ n (An_i64 Debug u Iu) (An_i64 Debug v Iv) H)|]. split; [exact Hr|].
      rewrite (Qeq_eqR _ _ R). rewrite Q2R_div by exact NZ.
      assert (forall z, Q2R (inject_Z z) = IZR z) as QZ by (intros z0; unfold Q2R, inject_Z; cbn; field).
      rewrite !QZ. apply (f_equal IZR) in E. rewrite !mult_IZR in E.
      assert (IZR v <> 0) by (apply not_0_IZR; lia). assert (IZR b <> 0) by (apply not_0_IZR; pose proof (low_pos _ _ _ _ Lq); lia).
      apply (Rmult_eq_reg_r (IZR v * IZR b)); [|apply Rmult_integral_contrapositive_currified; assumption].
      transitivity (IZR u * IZR b); [field; assumption|]. rewrite E. field. assumption.
  - replace (Z.to_nat (ord + 1) <=? Nat.min i j)%nat with true in Hz by (symmetry; apply Nat.leb_le; lia).
    unfold lerr in Hz. injection Hz as ->. reflexivity.
  - replace (Z.to_nat (ord + 1) <=? Nat.min i j)%nat with false in Hz by (symmetry; apply Nat.leb_gt; lia).
    destruct (Nat.ltb_spec j i); [discriminate|]. destruct (Nat.ltb_spec i j); [discriminate|].
    destruct Hz as (u & v & E & _). discriminate.
Qed.

(** The answer for p/q at 0, with p ~ c*x^i and q ~ d*x^j: an error if order_try is below both
    i and j; otherwise 0 if i > j, infinity if i < j, and the exact number c/d if i = j. *)
Theorem c80_complete x p q i c j d to ord fuel y : pos_poly x p -> pos_poly x q ->
  lowest x p i c -> lowest x q j d -> wf to -> is_zero to = true -> (0 <= ord)%Z ->
  limit fuel Debug (e_div p q) (e_var x) to ord = Ok y ->
  ((ord < Z.of_nat (Nat.min i j))%Z -> y = RErr NoValidLimitFound) /\
  ((Z.of_nat (Nat.min i j) <= ord)%Z ->
     ((j < i)%nat -> y = ROk Infinitesimal) /\
     ((i < j)%nat -> y = ROk Infinity) /\
     (i = j -> exists n r, y = ROk (Normal (e_num n)) /\ api_number Debug n /\ exact_Q n = Some r /\ Q2R r = c / d)).
Proof.
  intros Pp Pq Hc Hd _ Z O H.
  destruct (low_exists x p Pp) as (i' & a & Lp), (low_exists x q Pq) as (j' & b & Lq).
  destruct (lowest_unique _ _ _ _ _ _ Hc (low_lowest _ _ _ _ Lp)) as (<- & ->).
  destruct (lowest_unique _ _ _ _ _ _ Hd (low_lowest _ _ _ _ Lq)) as (<- & ->).
  apply (lh_core 0 x p q i a j b to ord fuel y Lp Lq); auto. intros F; lia.
Qed.
Print Assumptions c80_complete.

(** ** the answers are the limits *)
Lemma num_R_exact m n r : api_number m n -> exact_Q n = Some r -> num_R n = Some (Q2R r).
Proof.
  intros A E. pose proof (api_number_ok m n A) as (_ & T). destruct (exact_split n r E) as (F & V). unfold num_R; clear E. unfold SpecExact.not_float in F.
  destruct (ntag n); try (rewrite T in F; contradiction); rewrite V; reflexivity.
Qed.

(** the quotient behaves like (c/d) * x^i / x^j *)
Lemma quotient_limit x p q i c j d rho : lowest x p i c -> lowest x q j d ->
  filterlim (fun t => evalx rho x p t / evalx rho x q t / t ^ i * t ^ j) (near 0) (locally (c / d)).
Proof.
  intros Hp Hq. apply (lim_ext (near 0) (fun t => evalx rho x p t / t ^ i * / (evalx rho x q t / t ^ j))).
  - generalize (filter_and _ _ (lowest_nonzero _ _ _ _ rho Hq) near_nonzero). apply filter_imp. intros t (A & B).
    field. repeat split; try apply pow_nonzero; assumption.
  - apply (lim_mult (near 0)); [exact (proj2 Hp rho)|]. apply (lim_inv (near 0)); [pose proof (proj1 Hq); lra|exact (proj2 Hq rho)].
Qed.

Lemma quotient_small x p q i c j d rho : lowest x p i c -> lowest x q j d -> (j < i)%nat ->
  filterlim (fun t => evalx rho x p t / evalx rho x q t) (near 0) (locally 0).
Proof.
  intros Hp Hq L. assert (exists n, i = (j + S n)%nat) as (n & ->) by (exists (i - j - 1)%nat; lia).
  apply (lim_ext (near 0) (fun t => evalx rho x p t / evalx rho x q t / t ^ (j + S n) * t ^ j * t ^ S n)).
  - generalize (filter_and _ _ (lowest_nonzero _ _ _ _ rho Hq) near_nonzero). apply filter_imp. intros t (A & B).
    rewrite pow_add. field. repeat split; try apply pow_nonzero; assumption.
  - assert (filterlim (fun t => evalx rho x p t / evalx rho x q t / t ^ (j + S n) * t ^ j * t ^ S n) (near 0) (locally (c / d * 0))) as K.
    { apply (lim_mult (near 0)); [exact (quotient_limit _ _ _ _ _ _ _ rho Hp Hq)|apply lim_pow_zero]. }
    rewrite Rmult_0_r in K. exact K.
Qed.

Lemma div_near {fl} x p q rho i c j d : @low fl x p i c -> @low fl x q j d ->
  near 0 (fun t => evalx rho x p t / evalx rho x q t = evalx rho x (e_div p q) t).
Proof.
  intros Lp Lq. generalize (lowest_nonzero _ _ _ _ rho (low_lowest _ _ _ _ Lq)). apply filter_imp. intros t N.
  unfold evalx at 3, e_div. rewrite eval_mk2, (low_eval _ _ _ _ rho t Lp), (low_eval _ _ _ _ rho t Lq). cbn [obind ev2].
  destruct (Req_EM_T (evalx rho x q t) 0) as [E|E]; [contradiction|reflexivity].
Qed.

Lemma lh_right fl x p q i a j b to ord fuel z rho : @low fl x p i a -> @low fl x q j b ->
  ((1 <= fl)%nat -> zero_num to) -> fl = 0%nat \/ (fl = 1 /\ Nat.min i j <= 1)%nat \/ Nat.min i j = 0%nat ->
  is_zero to = true -> (0 <= ord)%Z ->
  limit fuel Debug (e_div p q) (e_var x) to ord = Ok (ROk z) -> describes (near 0) rho (evalx rho x (e_div p q)) z.
Proof.
  intros Lp Lq Z' G Z O H.
  pose proof (low_lowest _ _ _ _ Lp) as Hp. pose proof (low_lowest _ _ _ _ Lq) as Hq.
  destruct (lh_core fl x p q i a j b to ord fuel _ Lp Lq Z' G Z O H) as (A & B).
  destruct (Z.lt_ge_cases ord (Z.of_nat (Nat.min i j))) as [L|L]; [specialize (A L); discriminate|].
  destruct (B L) as (B1 & B2 & B3). pose proof (div_near x p q rho _ _ _ _ Lp Lq) as DN.
  destruct (Nat.lt_trichotomy i j) as [K|[K|K]].
  - specialize (B2 K). injection B2 as ->.
    apply (describes_ext (near 0) rho (fun t => / (evalx rho x q t / evalx rho x p t)) _ Infinity); cbn [describes].
    + generalize (filter_and _ _ DN (filter_and _ _ (lowest_nonzero _ _ _ _ rho Hp) (lowest_nonzero _ _ _ _ rho Hq))).
      apply filter_imp. intros t (E & N1 & N2). rewrite <- E. field. split; assumption.
    + apply (inv_big (near 0)).
      * exact (quotient_small _ _ _ _ _ _ _ rho Hq Hp K).
      * generalize (filter_and _ _ (lowest_nonzero _ _ _ _ rho Hp) (lowest_nonzero _ _ _ _ rho Hq)).
        apply filter_imp. intros t (N1 & N2). apply Rmult_integral_contrapositive_currified; [exact N2|apply Rinv_neq_0_compat, N1].
  - destruct (B3 K) as (n & r & E & An & Er & V). injection E as ->. cbn [describes]. exists (IZR a / IZR b). split.
    + unfold e_num. rewrite eval_num, (num_R_exact Debug n r An Er), V. reflexivity.
    + apply (lim_ext (near 0) (fun t => evalx rho x p t / evalx rho x q t / t ^ i * t ^ j)).
      * generalize (filter_and _ _ DN (filter_and _ _ near_nonzero (lowest_nonzero _ _ _ _ rho Hq))).
        apply filter_imp. intros t (E & N & N2). rewrite <- E, K. field. split; [exact N2|apply pow_nonzero, N].
      * exact (quotient_limit _ _ _ _ _ _ _ rho Hp Hq).
  - specialize (B1 K). injection B1 as ->. cbn [describes]. apply (lim_ext (near 0) _ _ _ DN).
    exact (quotient_small _ _ _ _ _ _ _ rho Hp Hq K).
Qed.

(** every answer for p/q at 0 describes the function *)
Theorem c80_right x p q to ord fuel z rho : pos_poly x p -> pos_poly x q ->
  wf to -> is_zero to = true -> (0 <= ord)%Z ->
  limit fuel Debug (e_div p q) (e_var x) to ord = Ok (ROk z) -> describes (near 0) rho (evalx rho x (e_div p q)) z.
Proof.
  intros Pp Pq W Z O H.
  destruct (low_exists x p Pp) as (i & a & Lp), (low_exists x q Pq) as (j & b & Lq).
  apply (lh_right 0 x p q i a j b to ord fuel z rho Lp Lq); auto. intros F; lia.
Qed.
Print Assumptions c80_right.

(** A literal 0 among the summands breaks it: (0+x)/(0+x) is answered 0 for every order_try,
    though the function is 1 everywhere but at 0. *)
Theorem c80_zero_literal_refuted rho : exists p, 
  (forall ord fuel, (0 <= ord)%Z -> (3 <= fuel)%nat -> limit fuel Debug (e_div p p) (e_var "x") e_zero ord = Ok (ROk (Normal e_zero))) /\
  lowest "x" p 1 1 /\
  ~ describes (near 0) rho (evalx rho "x" (e_div p p)) (Normal e_zero).
Proof.
  exists (e_add e_zero (e_var "x")).
  assert (forall r t, evalx r "x" (e_add e_zero (e_var "x")) t = t) as V.
  { intros r t. unfold evalx, e_add, e_var. rewrite eval_mk2, eval_zero, eval_var, upd_same. cbn [obind ev2]. ring. }
  split; [|split].
  - intros ord fuel O F. do 3 (destruct fuel as [|fuel]; [lia|]). clear F.
    unfold limit. cbn [to_variable e_var root]. cbn [limit_var]. unfold limit_rule. unfold e_div at 1. cbn [root mk2].
    rewrite descriptor_gen. unfold div_limit_expr_rule. cbn [child mk2 pop_unwrap pop bind rev app].
    replace (Z.to_nat (ord + 1)) with (S (Z.to_nat ord)) by lia. cbn [div_loop]. reflexivity.
  - split; [lra|]. intros r. apply (lim_ext (near 0) (fun _ => 1)); [|apply filterlim_const].
    generalize near_nonzero. apply filter_imp. intros t T. rewrite V. field. exact T.
  - intros (v & E & L). rewrite eval_zero in E. injection E as <-.
    assert (filterlim (evalx rho "x" (e_div (e_add e_zero (e_var "x")) (e_add e_zero (e_var "x")))) (near 0) (locally 1)) as L1.
    { apply (lim_ext (near 0) (fun _ => 1)); [|apply filterlim_const].
      generalize near_nonzero. apply filter_imp. intros t T. unfold evalx, e_div. rewrite eval_mk2.
      assert (eval (upd rho "x" t) (e_add e_zero (e_var "x")) = Some t) as ->.
      { pose proof (V rho t) as E. unfold evalx in E. destruct (eval (upd rho "x" t) (e_add e_zero (e_var "x"))); congruence. }
      cbn [obind ev2]. destruct (Req_EM_T t 0); [contradiction|]. field. exact T. }
    pose proof (lim_unique _ _ _ _ L L1) as K. lra.
Qed.
Print Assumptions c80_zero_literal_refuted.

(** (6*(x*x))*x divided by 4*(x*(x*x)) + x*(x*(x*x)): an error at order 2, 3/2 from order 3 on *)
Definition cubic : expr := e_mul (e_mul (e_of_i64 6) (e_mul (e_var "x") (e_var "x"))) (e_var "x").
Definition quartic : expr :=
  e_add (e_mul (e_of_i64 4) (e_mul (e_var "x") (e_mul (e_var "x") (e_var "x"))))
        (e_mul (e_var "x") (e_mul (e_var "x") (e_mul (e_var "x") (e_var "x")))).
Example c80_witness : pos_poly "x" cubic /\ pos_poly "x" quartic /\ lowest "x" cubic 3 6 /\ lowest "x" quartic 3 4 /\
  limit 100 Debug (e_div cubic quartic) (e_var "x") e_zero 2 = Ok (RErr NoValidLimitFound) /\
  exists n, limit 100 Debug (e_div cubic quartic) (e_var "x") e_zero 3 = Ok (ROk (Normal (e_num n))) /\ exact_Q n = Some (3 # 2)%Q.
Proof.
  split; [|split; [|split; [|split; [|split]]]].
  - repeat constructor.
  - repeat constructor.
  - change 3%nat with (0 + (1 + 1) + 1)%nat. change 6 with (IZR (6 * (1 * 1) * 1)). apply (@low_lowest 0). repeat constructor.
  - change 3%nat with (Nat.min (0 + (1 + (1 + 1))) (1 + (1 + (1 + 1)))). 
    change 4 with (IZR (combine (0 + (1 + (1 + 1))) (4 * (1 * (1 * 1))) (1 + (1 + (1 + 1))) (1 * (1 * (1 * 1))))).
    apply (@low_lowest 0). repeat constructor.
  - vm_compute. reflexivity.
  - eexists. split; vm_compute; reflexivity.
Qed.
