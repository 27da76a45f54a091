(** * PropsAlg: algebraic laws of the numbers (C51 commutativity, C52 cancellation and negation) *)
From Coq Require Import ZArith QArith List String Bool Lia.
From Coq Require Import Floats.SpecFloat.
From Verif Require Import Base Float Rational SmartNum Ast Spec.
From Verif Require Import BaseProofs RationalProofs NumProofs NumProofs2.
Import ListNotations.
Open Scope Z_scope.

(** ** C51: + and * are commutative *)

(** a call of a real build returns or panics *)
Definition real_run {A} (r : res A) : Prop := r = Panic \/ exists v, r = Ok v.

Lemma rr_ok {A} (v : A) : real_run (Ok v). Proof. right; eauto. Qed.
Lemma rr_bind {A B} (r : res A) (f : A -> res B) : real_run r -> (forall a, real_run (f a)) ->
  real_run (bind r f).
Proof. intros [-> | [v ->]] H; [left; reflexivity|apply H]. Qed.
Lemma rr_ovf_i m z : m <> Strict -> real_run (ovf_i64 m z).
Proof. unfold ovf_i64, real_run. destruct (in_i64 z), m; intros; eauto; congruence. Qed.
Lemma rr_ovf_u m z : m <> Strict -> real_run (ovf_u64 m z).
Proof. unfold ovf_u64, real_run. destruct (in_u64 z), m; intros; eauto; congruence. Qed.
Lemma rr_cast_i m z : m <> Strict -> real_run (cast_i64 m z).
Proof. unfold cast_i64, real_run. destruct (in_i64 z), m; intros; eauto; congruence. Qed.
Lemma rr_cast_u m z : m <> Strict -> real_run (cast_u64 m z).
Proof. unfold cast_u64, real_run. destruct (in_u64 z), m; intros; eauto; congruence. Qed.

Lemma bind_comm {A B C} (r : res A) (s : res B) (f : A -> B -> res C) : real_run r -> real_run s ->
  bind r (fun a => bind s (fun b => f a b)) = bind s (fun b => bind r (fun a => f a b)).
Proof. intros [-> | [v ->]] [-> | [w ->]]; reflexivity. Qed.

Lemma rr_cross m n d s : m <> Strict -> real_run (rat_cross m n d s).
Proof.
  intros H. unfold rat_cross, u64_mul, i64_mul.
  apply rr_bind; [now apply rr_ovf_u|]. intros a. apply rr_bind; [now apply rr_cast_i|]. intros b.
  now apply rr_ovf_i.
Qed.

Lemma rat_finish_comm m s d1 d2 : rat_finish m s d1 d2 = rat_finish m s d2 d1.
Proof. unfold rat_finish, u64_mul. now rewrite (Z.mul_comm d1 d2). Qed.
Lemma rat_cross_comm m n d s : rat_cross m n d s = rat_cross m d n s.
Proof. unfold rat_cross, u64_mul. now rewrite (Z.mul_comm n d). Qed.

Lemma rat_add_comm m x y : m <> Strict -> rat_add m x y = rat_add m y x.
Proof.
  intros H. unfold rat_add. rewrite bind_comm by (now apply rr_cross).
  rewrite (rat_cross_comm m (rden x)), (rat_cross_comm m (rnum x)).
  destruct (rat_cross m (rnum y) (rden x) (rsign y)); cbn [bind]; try reflexivity.
  destruct (rat_cross m (rden y) (rnum x) (rsign x)); cbn [bind]; try reflexivity.
  unfold i64_add. rewrite Z.add_comm. destruct (ovf_i64 m (a + a0)); cbn [bind]; try reflexivity.
  apply rat_finish_comm.
Qed.
Lemma rat_mul_comm m x y : rat_mul m x y = rat_mul m y x.
Proof.
  unfold rat_mul, i64_mul, u64_mul.
  now rewrite (Z.mul_comm (rsign x)), (Z.mul_comm (rnum x)), (Z.mul_comm (rden x)).
Qed.

Lemma f_add_comm a b : f_add a b = f_add b a.
Proof.
  unfold f_add, SFadd. destruct a as [s|s| |s p e], b as [s'|s'| |s' p' e']; try reflexivity;
    try (destruct s, s'; reflexivity).
  cbv zeta. rewrite (Z.min_comm e e'). f_equal. apply Z.add_comm.
Qed.
Lemma f_mul_comm a b : f_mul a b = f_mul b a.
Proof.
  unfold f_mul, SFmul. destruct a as [s|s| |s p e], b as [s'|s'| |s' p' e']; try reflexivity;
    rewrite ?(xorb_comm s s'); try reflexivity.
  now rewrite (Pos.mul_comm p p'), (Z.add_comm e e').
Qed.
Lemma m_add_comm m a b : m <> Strict -> m_add m a b = m_add m b a.
Proof. intros H. unfold m_add, trap_unless. rewrite f_add_comm. destruct m; try reflexivity. congruence. Qed.
Lemma m_mul_comm m a b : m <> Strict -> m_mul m a b = m_mul m b a.
Proof. intros H. unfold m_mul, trap_unless. rewrite f_mul_comm. destruct m; try reflexivity. congruence. Qed.

Lemma val_add_comm m a b : m <> Strict -> val_add m a b = val_add m b a.
Proof.
  intros H. unfold val_add. destruct a as [i|i|i], b as [j|j|j].
  - unfold i64_add. now rewrite Z.add_comm.
  - destruct (rat_of_i64 m i); cbn [bind]; try reflexivity. now rewrite rat_add_comm.
  - destruct (m_of_Z m i); cbn [bind]; try reflexivity. now rewrite m_add_comm.
  - destruct (rat_of_i64 m j); cbn [bind]; try reflexivity. now rewrite rat_add_comm.
  - now rewrite rat_add_comm.
  - destruct (rat_to_f64 m i); cbn [bind]; try reflexivity. now rewrite m_add_comm.
  - destruct (m_of_Z m j); cbn [bind]; try reflexivity. now rewrite m_add_comm.
  - destruct (rat_to_f64 m j); cbn [bind]; try reflexivity. now rewrite m_add_comm.
  - now rewrite m_add_comm.
Qed.
Lemma val_mul_comm m a b : m <> Strict -> val_mul m a b = val_mul m b a.
Proof.
  intros H. unfold val_mul. rewrite (orb_comm (val_is_zero a)).
  destruct (val_is_zero b || val_is_zero a)%bool; [reflexivity|]. destruct a as [i|i|i], b as [j|j|j].
  - unfold i64_mul. now rewrite Z.mul_comm.
  - destruct (rat_of_i64 m i); cbn [bind]; try reflexivity. now rewrite rat_mul_comm.
  - destruct (m_of_Z m i); cbn [bind]; try reflexivity. now rewrite m_mul_comm.
  - destruct (rat_of_i64 m j); cbn [bind]; try reflexivity. now rewrite rat_mul_comm.
  - now rewrite rat_mul_comm.
  - destruct (rat_to_f64 m i); cbn [bind]; try reflexivity. now rewrite m_mul_comm.
  - destruct (m_of_Z m j); cbn [bind]; try reflexivity. now rewrite m_mul_comm.
  - destruct (rat_to_f64 m j); cbn [bind]; try reflexivity. now rewrite m_mul_comm.
  - now rewrite m_mul_comm.
Qed.
Lemma guard_real m b r : m <> Strict -> guard m b r = r.
Proof. intros H. unfold guard. destruct m; try reflexivity. congruence. Qed.

(** same outcome (the identical number, or a panic both ways), f64 and undefined operands
    included; only when both operands are zero may the results be differently represented zeros *)
Theorem c51_add m x y : m = Debug \/ m = Release ->
  sn_add m x y = sn_add m y x \/
  (sn_is_zero x = true /\ sn_is_zero y = true /\ sn_add m x y = Ok y /\ sn_add m y x = Ok x).
Proof.
  intros Hm. assert (Ns : m <> Strict) by (destruct Hm; congruence).
  unfold sn_add. destruct (sn_is_zero x) eqn:X, (sn_is_zero y) eqn:Y; auto.
  left. rewrite !guard_real, val_add_comm by assumption. reflexivity.
Qed.
Print Assumptions c51_add.

Theorem c51_mul m x y : m = Debug \/ m = Release ->
  sn_mul m x y = sn_mul m y x \/
  (sn_is_one x = true /\ sn_is_one y = true /\ sn_mul m x y = Ok y /\ sn_mul m y x = Ok x).
Proof.
  intros Hm. assert (Ns : m <> Strict) by (destruct Hm; congruence).
  unfold sn_mul. destruct (sn_is_one x) eqn:X, (sn_is_one y) eqn:Y; auto.
  left. rewrite !guard_real, val_mul_comm by assumption. reflexivity.
Qed.
Print Assumptions c51_mul.

Theorem c51_fractions m x y : m = Debug \/ m = Release ->
  rat_add m x y = rat_add m y x /\ rat_mul m x y = rat_mul m y x.
Proof. intros Hm. split; [apply rat_add_comm; destruct Hm; congruence|apply rat_mul_comm]. Qed.
Print Assumptions c51_fractions.

(** + is not associative, not even on integers in a debug build: (2^63-1 + 1) + -1 panics *)
Theorem c51_not_associative : exists x y z a, api_number Debug x /\ api_number Debug y /\ api_number Debug z /\
  sn_add Debug x y = Panic /\ sn_add Debug y z = Ok a /\ sn_add Debug x a = Ok x.
Proof.
  exists (sn_of_i64 (two63 - 1)), (sn_of_i64 1), (sn_of_i64 (-1)), sn_zero.
  repeat match goal with |- _ /\ _ => split end; try (vm_compute; reflexivity); apply An_i64; reflexivity.
Qed.
Print Assumptions c51_not_associative.

Example c51_example : exists x z, sn_new_rational Debug 1 2 3 = Ok (Some x) /\
  sn_add Debug x (sn_of_f64 f_PI) = Ok z /\ sn_add Debug (sn_of_f64 f_PI) x = Ok z /\
  sn_mul Debug x (sn_of_i64 6) = sn_mul Debug (sn_of_i64 6) x.
Proof. eexists. eexists. repeat split; vm_compute; reflexivity. Qed.

(** ** C52: cancellation and double negation *)

Lemma val_Q_exact x q : exact_Q x = Some q -> (forall f, nval x <> Real f) /\ val_Q (nval x) = Some q.
Proof. unfold exact_Q. intros H. split; [intros f E; rewrite E in H; discriminate|destruct (nval x); congruence]. Qed.

Lemma reduce_zero_num s d : 0 < d -> rnum (rat_reduce (mkRat s 0 d)) = 0 /\ rden (rat_reduce (mkRat s 0 d)) <> 0.
Proof.
  intros H. destruct (reduce_bounds (mkRat s 0 d)) as (A & B & C & D & E); cbn [rnum rden] in *; try lia.
Qed.

Lemma ovf_same m z a b : ovf_i64 m z = Ok a -> ovf_i64 m z = Ok b -> a = b.
Proof. congruence. Qed.

Lemma rat_sub_self x z : 0 < rden x -> rat_sub Debug x x = Ok z -> rnum z = 0 /\ rden z <> 0.
Proof.
  intros Hd H. unfold rat_sub in H. rewrite (rat_cross_comm Debug (rden x)) in H. inv_bind H. rewrite Hb in H. cbn [bind] in H.
  unfold i64_sub in H. rewrite Z.sub_diag in H. cbn [ovf_i64 in_i64 andb] in H.
  change (ovf_i64 Debug 0) with (@Ok Z 0) in H. cbn [bind] in H. unfold rat_finish in H.
  change (i64_abs Debug 0) with (@Ok Z 0) in H. cbn [bind] in H.
  change (cast_u64 Debug 0) with (@Ok Z 0) in H. cbn [bind] in H. inv_bind H.
  unfold u64_mul, ovf_u64 in Hb0. destruct (in_u64 _); [|discriminate]. injection Hb0 as <-.
  injection H as <-. apply reduce_zero_num. nia.
Qed.

Lemma reduce_same n : 0 < n -> rat_reduce (mkRat 1 n n) = mkRat 1 1 1.
Proof.
  intros H. assert (reduce_divisor (mkRat 1 n n) = n) as E.
  { unfold reduce_divisor. cbn [rnum rden]. rewrite gcd_correct by lia. rewrite Z.gcd_diag, Z.abs_eq by lia.
    destruct (Z.eqb_spec n 0); lia. }
  unfold rat_reduce. rewrite E. cbn [rnum rden rsign]. unfold u64_div. rewrite Z.div_same by lia. reflexivity.
Qed.

Lemma rat_div_self x z : rsign x = 1 \/ rsign x = -1 -> 0 < rden x -> 0 < rnum x ->
  rat_div Debug x x = Ok z -> z = mkRat 1 1 1.
Proof.
  intros Hs Hd Hn H. unfold rat_div in H.
  assert (i64_mul Debug (rsign x) (rsign x) = Ok 1) as E by (destruct Hs as [-> | ->]; reflexivity).
  rewrite E in H. cbn [bind] in H. unfold u64_mul in H. rewrite (Z.mul_comm (rden x)) in H.
  unfold ovf_u64 in H. destruct (in_u64 _); cbn [bind] in H; [|discriminate]. injection H as <-.
  apply reduce_same. nia.
Qed.

Theorem c52_sub_self m x z q : api_number m x -> exact_Q x = Some q -> sn_sub Debug x x = Ok z -> z = sn_zero.
Proof.
  intros Hx Hq H. apply api_number_ok in Hx. unfold sn_sub in H.
  destruct (sn_is_zero x) eqn:Z.
  - rewrite sn_neg_zero in H by assumption. congruence.
  - apply val_Q_exact in Hq as [Ex Hq]. destruct Hx as [Hi _].
    rewrite guard_real in H by discriminate. destruct (nval x) as [i|r|f]; [| |now destruct (Ex f)].
    + cbn [val_sub] in H. unfold i64_sub in H. rewrite Z.sub_diag in H. cbn in H. congruence.
    + cbn [val_sub] in H. inv_bind H. inv_bind Hb. injection Hb as <-. injection H as <-.
      destruct (val_Q_rat _ _ Hi Hq) as [(_ & _ & Hd) _].
      apply rat_sub_self in Hb0 as [A B]; [|lia]. unfold wrap_val. cbn [val_is_zero].
      apply Z.eqb_neq in B. rewrite A, B. reflexivity.
Qed.
Print Assumptions c52_sub_self.

Theorem c52_div_self m x z q : api_number m x -> exact_Q x = Some q -> ~ (q == 0)%Q ->
  sn_div Debug x x = Ok z -> z = sn_one.
Proof.
  intros Hx Hq Hnz H. apply api_number_ok in Hx. apply val_Q_exact in Hq as [Ex Hq]. destruct Hx as [Hi _].
  unfold sn_div in H. rewrite guard_real in H by discriminate. unfold val_div in H.
  destruct (val_is_zero (nval x)) eqn:Z; [exfalso; apply Hnz; eapply val_zero_Q; eassumption|].
  destruct (nval x) as [i|r|f]; [| |now destruct (Ex f)].
  - cbn [val_is_zero] in Z. apply Z.eqb_neq in Z. inv_bind H. injection H as <-.
    inv_bind Hb. rewrite Hb0 in Hb. cbn [bind] in Hb. inv_bind Hb. injection Hb as <-.
    unfold rat_of_i64 in Hb0. inv_bind Hb0. inv_bind Hb0. injection Hb0 as <-.
    unfold i64_abs, ovf_i64 in Hb. destruct (in_i64 (Z.abs i)) eqn:I; [|discriminate]. injection Hb as <-.
    unfold cast_u64 in Hb2. destruct (in_u64 (Z.abs i)) eqn:U.
    + injection Hb2 as <-. destruct (Z.eqb_spec i 0); [lia|].
      apply rat_div_self in Hb1; cbn [rsign rnum rden]; [subst; reflexivity| |lia|lia].
      unfold i64_signum. destruct i; cbn [Z.sgn]; auto; lia.
    + exfalso. apply in_i64_iff in I. unfold in_u64 in U. unfold two63, two64 in *.
      rewrite andb_false_iff in U. destruct U as [U|U]; [apply Z.leb_gt in U|apply Z.ltb_ge in U]; lia.
  - inv_bind H. injection H as <-. inv_bind Hb. injection Hb as <-.
    destruct (val_Q_rat _ _ Hi Hq) as [(Hs & Hn & Hd) ->].
    assert (rnum r <> 0) as N by (apply ratQ_nonzero; [repeat split; tauto|exact Hnz]).
    apply rat_div_self in Hb0; [subst; reflexivity| |lia|lia]. tauto.
Qed.
Print Assumptions c52_div_self.

(** and they do return for moderately sized numbers *)
Theorem c52_returns m x q : api_number m x -> exact_Q x = Some q -> ~ int_min x ->
  num_of x * den_of x < two63 -> den_of x * den_of x < two64 ->
  sn_sub Debug x x = Ok sn_zero /\ (~ (q == 0)%Q -> sn_div Debug x x = Ok sn_one).
Proof.
  intros Hx Hq Hm H1 H2. assert (Hx' := Hx). apply api_number_ok in Hx'. pose proof (val_Q_exact _ _ Hq) as [Ex Hv].
  split.
  - assert (exists z, sn_sub Debug x x = Ok z) as (z & E); [|rewrite E; f_equal; eapply c52_sub_self; eassumption].
    unfold sn_sub. destruct (sn_is_zero x) eqn:Z; [rewrite sn_neg_zero by assumption; eauto|].
    rewrite guard_real by discriminate. destruct Hx' as [Hi _]. unfold num_of, den_of in *. destruct (nval x) as [i|r|f]; [| |now destruct (Ex f)].
    + cbn [val_sub]. unfold i64_sub. rewrite Z.sub_diag. cbn. eauto.
    + destruct (val_Q_rat _ _ Hi Hv) as [V _].
      destruct (rat_sub_spec Debug r r V V) as (w & E & _).
      { repeat split; try assumption. rewrite Z.sub_diag. reflexivity. }
      cbn [val_sub]. rewrite E. cbn [bind]. eauto.
  - intros Hnz. assert (exists z, sn_div Debug x x = Ok z) as (z & E); [|rewrite E; f_equal; eapply c52_div_self; eassumption].
    unfold sn_div. rewrite guard_real by discriminate. unfold val_div.
    destruct (val_is_zero (nval x)) eqn:Z; [cbn [bind]; eauto|]. destruct Hx' as [Hi _].
    unfold int_min, num_of, den_of in *. destruct (nval x) as [i|r|f]; [| |now destruct (Ex f)].
    + destruct (rat_of_i64_debug i Hi) as (r & E & I & D & N); [congruence|]. cbv beta iota; rewrite E; cbn [bind].
      assert (rat_valid r) as V by (apply rat_inv_valid; [assumption|lia]).
      destruct (rat_div Debug r r) as [w| | |] eqn:W; cbn [bind]; eauto; exfalso.
      * apply rat_div_panic in W; try assumption. rewrite D, N in W. unfold two63, two64 in *. lia.
      * unfold rat_div, i64_mul, u64_mul, ovf_i64, ovf_u64 in W.
        repeat match type of W with context [if ?c then _ else _] => destruct c end; discriminate.
      * unfold rat_div, i64_mul, u64_mul, ovf_i64, ovf_u64 in W.
        repeat match type of W with context [if ?c then _ else _] => destruct c end; discriminate.
    + destruct (val_Q_rat _ _ Hi Hv) as [V _].
      destruct (rat_div Debug r r) as [w| | |] eqn:W; cbn [bind]; eauto; exfalso.
      * apply rat_div_panic in W; try assumption. unfold two63, two64 in *. lia.
      * unfold rat_div, i64_mul, u64_mul, ovf_i64, ovf_u64 in W.
        repeat match type of W with context [if ?c then _ else _] => destruct c end; discriminate.
      * unfold rat_div, i64_mul, u64_mul, ovf_i64, ovf_u64 in W.
        repeat match type of W with context [if ?c then _ else _] => destruct c end; discriminate.
Qed.
Print Assumptions c52_returns.

Lemma f_neg_inv f : f_neg (f_neg f) = f.
Proof. destruct f; cbn; rewrite ?negb_involutive; reflexivity. Qed.

Lemma ovf_neg_neg m z a b : in_i64 z = true -> ovf_i64 m (- z) = Ok a -> ovf_i64 m (- a) = Ok b -> b = z.
Proof.
  intros Hz. unfold ovf_i64. apply in_i64_iff in Hz. destruct (in_i64 (- z)) eqn:E.
  - intros [= <-]. rewrite Z.opp_involutive. rewrite (proj2 (in_i64_iff z)) by lia. congruence.
  - assert (z = - two63) as ->.
    { unfold in_i64 in E. rewrite andb_false_iff in E. destruct E as [E|E]; [apply Z.leb_gt in E|apply Z.ltb_ge in E]; lia. }
    destruct m; try discriminate. intros [= <-]. vm_compute. congruence.
Qed.

(** the raw stored value survives double negation, in every build *)
Lemma val_neg_neg m v a b : val_inv v -> val_neg m v = Ok a -> val_neg m a = Ok b -> b = v.
Proof.
  intros Hi H1 H2. destruct v as [i|r|f]; cbn [val_neg] in H1.
  - inv_bind H1. injection H1 as <-. cbn [val_neg] in H2. inv_bind H2. injection H2 as <-.
    f_equal. eapply ovf_neg_neg; eassumption.
  - inv_bind H1. injection H1 as <-. cbn [val_neg] in H2. inv_bind H2. injection H2 as <-.
    unfold rat_neg in *. inv_bind Hb. injection Hb as <-. inv_bind Hb0. injection Hb0 as <-.
    cbn [rsign rnum rden] in *. unfold i64_neg in *.
    assert (a0 = rsign r) as ->; [|destruct r; reflexivity].
    eapply ovf_neg_neg; [|exact Hb1|exact Hb].
    destruct Hi as [[[-> | [-> | [-> _]]] _] _]; reflexivity.
  - injection H1 as <-. cbn [val_neg] in H2. injection H2 as <-. now rewrite f_neg_inv.
Qed.

Lemma neg_min i : in_i64 i = true -> in_i64 (- i) = false -> i = - two63.
Proof.
  intros H I. apply in_i64_iff in H. unfold in_i64 in I. rewrite andb_false_iff in I.
  destruct I as [I|I]; [apply Z.leb_gt in I|apply Z.ltb_ge in I]; lia.
Qed.

Lemma val_neg_zero m v a : val_inv v -> m <> Strict -> val_neg m v = Ok a -> val_is_zero v = false ->
  val_is_zero a = false.
Proof.
  intros Hi Ns H T1. destruct v as [i|r|f]; cbn [val_neg] in H; inv_bind H || idtac; injection H as <-; try reflexivity.
  - cbn [val_is_zero val_inv] in *. apply Z.eqb_neq in T1. apply Z.eqb_neq. unfold i64_neg, ovf_i64 in Hb.
    destruct (in_i64 (- i)) eqn:I; [injection Hb as <-; lia|].
    rewrite (neg_min i Hi I) in Hb. destruct m; try discriminate.
    injection Hb as <-. vm_compute. discriminate.
  - cbn [val_is_zero] in *. unfold rat_neg in Hb. inv_bind Hb. injection Hb as <-. exact T1.
Qed.

Lemma val_neg_of_one m v a : m <> Strict -> val_neg m v = Ok a -> val_is_one v = true ->
  val_is_zero a = false /\ val_is_one a = false.
Proof.
  intros Ns H T. destruct v as [i|r|f]; cbn [val_neg] in H; [inv_bind H..|discriminate]; injection H as <-.
  - cbn [val_is_one] in T. apply Z.eqb_eq in T. subst. vm_compute in Hb. injection Hb as <-; split; reflexivity.
  - cbn [val_is_one] in T. rewrite !andb_true_iff, !Z.eqb_eq in T. destruct T as [[T1 T2] T3].
    unfold rat_neg in Hb. inv_bind Hb. injection Hb as <-. rewrite T1 in Hb0. vm_compute in Hb0.
    injection Hb0 as <-. cbn [val_is_zero val_is_one rsign rnum rden].
    split; [|reflexivity]. rewrite T2. destruct (rden r =? 0); reflexivity.
Qed.

Lemma val_neg_to_one m v a : m <> Strict -> val_inv v -> val_neg m v = Ok a -> val_is_one a = true ->
  oQeq (val_Q v) (Some (-1 # 1)%Q) /\ (forall f, v <> Real f).
Proof.
  intros Ns Hi H V. destruct v as [i|r|f]; cbn [val_neg] in H; [inv_bind H..|injection H as <-; discriminate]; injection H as <-;
    (split; [|discriminate]); cbn [val_is_one] in V.
  - apply Z.eqb_eq in V. subst. unfold i64_neg, ovf_i64 in Hb. cbn [val_inv] in Hi.
    destruct (in_i64 (- i)) eqn:I.
    + injection Hb as Hb. assert (i = -1) as -> by lia. reflexivity.
    + rewrite (neg_min i Hi I) in Hb. destruct m; vm_compute in Hb; discriminate.
  - rewrite !andb_true_iff, !Z.eqb_eq in V. destruct V as [[V1 V2] V3].
    unfold rat_neg in Hb. inv_bind Hb. injection Hb as <-. cbn [rsign rnum rden] in *. subst.
    destruct Hi as [[Hs [Hn Hd]] Hz].
    assert (rsign r = -1) as S.
    { destruct Hs as [S|[S|[S S']]]; [|exact S|]; rewrite S in Hb0; destruct m; vm_compute in Hb0; discriminate. }
    cbn [val_Q]. destruct (rden r =? 0) eqn:D; [discriminate|]. apply Z.eqb_neq in D.
    unfold oQeq, ratQ, Qeq. cbn [Qnum Qden]. rewrite S, V2, Z2Pos.id by lia. lia.
Qed.

(** negating twice gives back the identical number unless the number is 0, 1, -1, pi or e ... *)
Theorem c52_neg_neg m x y z : m = Debug \/ m = Release -> api_number m x ->
  sn_neg m x = Ok y -> sn_neg m y = Ok z ->
  sn_is_zero x = false -> sn_is_one x = false -> sn_is_pi x = false -> sn_is_e x = false ->
  sn_is_one y = false -> z = x.
Proof.
  intros Hm Hx H1 H2 Z O P E Oy. assert (Ns : m <> Strict) by (destruct Hm; congruence).
  apply api_number_ok in Hx. unfold sn_neg in *. rewrite guard_real in H1, H2 by assumption.
  inv_bind H1. injection H1 as <-. inv_bind H2. injection H2 as <-.
  destruct Hx as [Hi Ht].
  assert (ntag x = TNothing) as T.
  { unfold sn_is_zero, sn_is_one, sn_is_pi, sn_is_e in *. destruct (ntag x); try discriminate; reflexivity. }
  rewrite T in Ht. destruct Ht as [T1 T2].
  pose proof (val_neg_zero m _ _ Hi Ns Hb T1) as Z0.
  assert (val_is_one a = false) as O0.
  { destruct (val_is_one a) eqn:E1; [|reflexivity]. unfold wrap_val in Oy. rewrite Z0, E1 in Oy. discriminate. }
  unfold wrap_val in Hb0. rewrite Z0, O0 in Hb0. cbn [nval] in Hb0.
  rewrite (val_neg_neg m _ _ _ Hi Hb Hb0).
  unfold wrap_val. rewrite T1, T2. destruct x; cbn in *; subst; reflexivity.
Qed.
Print Assumptions c52_neg_neg.

(** ... and in those cases the value is kept (the constants lose their exactness) *)
Theorem c52_neg_neg_constants m x y z : m = Debug \/ m = Release -> api_number m x ->
  sn_neg m x = Ok y -> sn_neg m y = Ok z ->
  (sn_is_zero x = true -> z = sn_zero) /\
  (sn_is_one x = true -> z = sn_one) /\
  (sn_is_one y = true -> z = sn_of_i64 (-1) /\ oQeq (exact_Q x) (Some (-1 # 1)%Q)) /\
  (sn_is_pi x = true -> z = sn_of_f64 f_PI /\ sn_is_pi z = false) /\
  (sn_is_e x = true -> z = sn_of_f64 f_E /\ sn_is_e z = false).
Proof.
  intros Hm Hx H1 H2. assert (Ns : m <> Strict) by (destruct Hm; congruence).
  apply api_number_ok in Hx. repeat match goal with |- _ /\ _ => split end; intros T.
  - rewrite sn_neg_zero in H1 by assumption. injection H1 as <-. destruct Hm; subst m; vm_compute in H2; injection H2 as <-; reflexivity.
  - rewrite is_one_val in T by assumption. unfold sn_neg in *. rewrite guard_real in H1, H2 by assumption.
    inv_bind H1. injection H1 as <-. inv_bind H2. injection H2 as <-. destruct Hx as [Hi _].
    destruct (val_neg_of_one m _ _ Ns Hb T) as [Z0 O0].
    unfold wrap_val in Hb0. rewrite Z0, O0 in Hb0. cbn [nval] in Hb0.
    rewrite (val_neg_neg m _ _ _ Hi Hb Hb0).
    unfold wrap_val. rewrite T. assert (val_is_zero (nval x) = false) as ->; [|reflexivity].
    clear Hb. destruct (nval x) as [i|r|f]; cbn [val_is_zero val_is_one] in *; [| |reflexivity].
    + apply Z.eqb_eq in T. subst. reflexivity.
    + rewrite !andb_true_iff, !Z.eqb_eq in T. destruct T as [[T1 ->] T3]. destruct (rden r =? 0); reflexivity.
  - unfold sn_neg in H1. rewrite guard_real in H1 by assumption. inv_bind H1. injection H1 as <-.
    assert (wrap_val a = sn_one /\ val_is_one a = true) as [W V].
    { unfold wrap_val in *. destruct (val_is_zero a); [discriminate|]. destruct (val_is_one a); [auto|discriminate]. }
    rewrite W in H2. split; [destruct Hm; subst m; vm_compute in H2; injection H2 as <-; reflexivity|].
    destruct Hx as [Hi _]. destruct (val_neg_to_one m _ _ Ns Hi Hb V) as [Q N].
    unfold exact_Q. destruct (nval x) as [i|r|f]; [exact Q|exact Q|]. destruct (N f eq_refl).
  - unfold sn_is_pi in T. destruct Hx as [_ Ht]. destruct (ntag x) eqn:E; try discriminate.
    destruct x as [v t]; cbn [ntag nval] in *. subst v t. destruct Hm; subst m; vm_compute in H1; injection H1 as <-;
    vm_compute in H2; injection H2 as <-; split; reflexivity.
  - unfold sn_is_e in T. destruct Hx as [_ Ht]. destruct (ntag x) eqn:E; try discriminate.
    destruct x as [v t]; cbn [ntag nval] in *. subst v t. destruct Hm; subst m; vm_compute in H1; injection H1 as <-;
    vm_compute in H2; injection H2 as <-; split; reflexivity.
Qed.
Print Assumptions c52_neg_neg_constants.

(** in a release build x - x is not always zero, and x / x not always one: a wrapped
    denominator makes them undefined (no panic, no error) *)
Theorem c52_release_refuted : exists x q z w, api_number Release x /\ exact_Q x = Some q /\ ~ (q == 0)%Q /\
  sn_sub Release x x = Ok z /\ sn_is_zero z = false /\ undefined_fraction z /\
  sn_div Release x x = Ok w /\ sn_is_one w = false /\ undefined_fraction w.
Proof.
  exists (mkNum (Rational (mkRat 1 12884901888 8589934592)) TNothing).
  do 3 eexists. repeat match goal with |- _ /\ _ => split end.
  - apply (An_rational _ 1 12884901888 8589934592); vm_compute; reflexivity.
  - vm_compute. reflexivity.
  - vm_compute. discriminate.
  - vm_compute. reflexivity.
  - reflexivity.
  - eexists. split; reflexivity.
  - vm_compute. reflexivity.
  - reflexivity.
  - eexists. split; reflexivity.
Qed.
Print Assumptions c52_release_refuted.


Example c52_example : exists x y z, sn_new_rational Debug (-1) 2 3 = Ok (Some x) /\
  sn_sub Debug x x = Ok sn_zero /\ sn_div Debug x x = Ok sn_one /\
  sn_neg Debug x = Ok y /\ sn_neg Debug y = Ok z /\ z = x.
Proof. repeat eexists; vm_compute; reflexivity. Qed.
