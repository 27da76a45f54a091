(** * PropsFPoly: accuracy of simplification, derivatives and Taylor expansions of positive
    polynomials with floating-point coefficients (C92) *)
From Coq Require Import ZArith QArith List String Bool Lia Lra Psatz.
From Coq Require Import Reals Qreals.
From Coquelicot Require Import Coquelicot.
From Coq Require Import Floats.SpecFloat.
From Flocq Require Import Core BinarySingleNaN Relative.
From Verif Require Import Base Float Rational SmartNum Ast Compute Spec SpecTree SpecR SpecF SpecAcc SpecHeight SpecMixed SpecFPoly.
From Verif Require Import BaseProofs RationalProofs NumProofs NumProofs2 FloatProofs FloatNum FloatNum2 ConstProofs TreeProofs TreeProofs2 TreeProofs3 RealProofs RealDeriv IntProofs ExactProofs PropsHeight PropsAcc PropsMixed PropsTree TreeProofs5.
Import ListNotations.
Open Scope R_scope.

(** ** ranges: powers of two are representable, so rounding stays inside them *)
Lemma pow2_f64 z : (-1000 <= z <= 1000)%Z -> exists g, is_f64 g /\ f_finite g /\ fR g = bpow radix2 z.
Proof.
  intros H. apply format_f64.
  - apply generic_format_bpow. unfold SpecFloat.fexp, SpecFloat.emin. lia.
  - rewrite Rabs_pos_eq by apply bpow_ge_0. apply bpow_lt. lia.
Qed.
Lemma bpow_nat k : bpow radix2 (Z.of_nat k) = 2 ^ k.
Proof. rewrite <- INR_IZR_INZ || idtac. rewrite bpow_powerRZ. rewrite <- pow_powerRZ. reflexivity. Qed.
Lemma bpow_neg k : bpow radix2 (- Z.of_nat k) = / 2 ^ k.
Proof. rewrite bpow_opp, bpow_nat. reflexivity. Qed.

Lemma round_range r f p q : rounds_to r f -> (p <= 1000)%nat -> (q <= 1000)%nat -> / 2 ^ p <= r <= 2 ^ q ->
  is_f64 f /\ f_finite f /\ / 2 ^ p <= fR f <= 2 ^ q /\ exists t, good 1 t /\ fR f = r * t.
Proof.
  intros R Hp Hq H. pose proof big_pow as BP.
  assert (0 < / 2 ^ p) by (apply Rinv_0_lt_compat, pow_lt; lra).
  assert (2 ^ q <= 2 ^ 1000) by (apply Rle_pow; [lra|exact Hq]).
  assert (/ 2 ^ 1000 <= / 2 ^ p) by (apply Rinv_le_contravar; [apply pow_lt; lra|apply Rle_pow; [lra|exact Hp]]).
  assert (0 < / 2 ^ 1000) by (apply Rinv_0_lt_compat, pow_lt; lra).
  destruct (round_good r f R ltac:(rewrite Rabs_pos_eq; lra) ltac:(rewrite Rabs_pos_eq; lra)) as (I1 & F & G).
  split; [exact I1|]. split; [exact F|]. split; [|exact G].
  destruct (pow2_f64 (- Z.of_nat p)) as (lo & Il & Fl & El); [lia|]. destruct (pow2_f64 (Z.of_nat q)) as (hi & Ih & Fh & Eh); [lia|].
  rewrite bpow_neg in El. rewrite bpow_nat in Eh. rewrite <- El, <- Eh.
  apply (rounds_to_between r f lo hi R); auto; [rewrite Rabs_pos_eq; lra|rewrite El, Eh; exact H].
Qed.

(** ** numbers of the class *)
(** [nice p q n v]: the number [n] of value [v] is the integer 0, or an integer or float with
    value and stored float between 2^-p and 2^q, at most one rounding apart *)
Definition posint (n : snum) : Prop := exists z, (0 < z)%Z /\ in_i64 z = true /\ n = sn_of_i64 z.
Definition nice (p q : nat) (n : snum) (v : R) : Prop :=
  num_R n = Some v /\
  ((n = sn_of_i64 0 /\ v = 0) \/
   ((posint n \/ f64_backed n) /\ / 2 ^ p <= v <= 2 ^ q /\ / 2 ^ p <= fR (val_f64 (nval n)) <= 2 ^ q /\
    part_num false n v 1)).

Lemma pow2_pos k : 0 < 2 ^ k. Proof. apply pow_lt. lra. Qed.
Lemma pow2_le i j : (i <= j)%nat -> 2 ^ i <= 2 ^ j. Proof. intros. apply Rle_pow; [lra|assumption]. Qed.
Lemma ipow2_pos k : 0 < / 2 ^ k. Proof. apply Rinv_0_lt_compat, pow2_pos. Qed.
Lemma ipow2_le i j : (i <= j)%nat -> / 2 ^ j <= / 2 ^ i.
Proof. intros. apply Rinv_le_contravar; [apply pow2_pos|apply pow2_le; assumption]. Qed.

Lemma nice_le p q p' q' n v : (p <= p')%nat -> (q <= q')%nat -> nice p q n v -> nice p' q' n v.
Proof.
  intros Hp Hq [E [Z|(T & V & F & P)]]; split; auto. right. split; [exact T|].
  pose proof (ipow2_le p p' Hp). pose proof (pow2_le q q' Hq). repeat split; try lra; apply P.
Qed.
Lemma nice_nonneg p q n v : nice p q n v -> 0 <= v.
Proof. intros [_ [[_ ->]|(_ & V & _)]]; [lra|]. pose proof (ipow2_pos p). lra. Qed.
Lemma posint_ok n : posint n -> num_ok n /\ val_valid (nval n).
Proof.
  intros (z & _ & I1 & ->). split; [|exact I]. apply (api_number_ok Debug), An_i64, I1.
Qed.
Lemma posint_intnum n : posint n -> intnum n. Proof. intros (z & _ & I1 & E). exists z. auto. Qed.
Lemma nice_ok p q n v : nice p q n v -> num_ok n /\ val_valid (nval n).
Proof.
  intros [_ [[-> _]|(_ & _ & _ & P)]]; [|split; apply P].
  split; [|exact I]. apply (api_number_ok Debug), An_i64. reflexivity.
Qed.
Lemma num_R_real f : f_finite f -> num_R (mkNum (Real f) TNothing) = Some (fR f).
Proof. intros F. unfold num_R, fR. cbn. destruct f; try contradiction; reflexivity. Qed.

Lemma nice_int p q z : (q <= 1000)%nat -> in_i64 z = true -> (0 <= z)%Z -> IZR z <= 2 ^ q -> nice p q (sn_of_i64 z) (IZR z).
Proof.
  intros Hq I1 Hz H. split; [apply num_R_int|].
  destruct (Z.eq_dec z 0) as [-> |N]; [left; auto|right].
  assert (posint (sn_of_i64 z)) as P by (exists z; repeat split; auto; lia).
  assert (1 <= IZR z) by (apply (IZR_le 1); lia).
  assert (/ 2 ^ p <= 1) by (rewrite <- Rinv_1; apply Rinv_le_contravar; [lra|apply pow_R1_Rle; lra]).
  destruct (round_range (IZR z) (f_of_Z z) 0 q (f_of_Z_rounds z) ltac:(lia) Hq ltac:(cbn [pow]; lra)) as (Iz & Fz & Rz & G).
  cbn [pow] in Rz. destruct (posint_ok _ P) as [O1 V1].
  split; [left; exact P|]. split; [lra|]. split; [cbn; lra|].
  split; [exact O1|]. split; [exact V1|]. split; [discriminate|]. split; [exact Fz|exact G].
Qed.
Lemma nice_real p q w f : (p <= 1000)%nat -> (q <= 1000)%nat -> rounds_to w f -> / 2 ^ p <= w <= 2 ^ q ->
  nice p q (mkNum (Real f) TNothing) (fR f) /\ exists t, good 1 t /\ fR f = w * t.
Proof.
  intros Hp Hq R W. destruct (round_range w f p q R Hp Hq W) as (I1 & F & B & G). split; [|exact G].
  split; [apply num_R_real, F|]. right. split; [right; exists f; reflexivity|]. split; [exact B|]. split; [exact B|].
  assert (num_ok (mkNum (Real f) TNothing)) as O1 by (apply (api_number_ok Debug _ (An_f64 Debug f I1))).
  split; [exact O1|]. split; [exact I1|]. split; [discriminate|]. split; [exact F|]. exists 1.
  split; [apply (good_le 0 1); [lia|apply good_0]|cbn; ring].
Qed.

Lemma nice_zero p q n v : nice p q n v -> sn_is_zero n = true -> v = 0.
Proof. intros H Z. exact (num_R_zero n v (proj1 (nice_ok _ _ _ _ H)) Z (proj1 H)). Qed.
Lemma nice_one p q n v : nice p q n v -> sn_is_one n = true -> v = 1.
Proof. intros H Z. exact (num_R_one n v (proj1 (nice_ok _ _ _ _ H)) Z (proj1 H)). Qed.
Lemma intnum_nice p q z v : (q <= 1000)%nat -> intnum z -> num_R z = Some v -> 0 <= v <= 2 ^ q -> nice p q z v.
Proof.
  intros Hq (y & I1 & ->) E V. rewrite num_R_int in E. injection E as <-. apply nice_int; auto; [|lra].
  apply le_IZR. lra.
Qed.
Lemma mean0 k v w s t : 0 <= v -> 0 <= w -> good k s -> good k t -> exists r, good k r /\ v * s + w * t = (v + w) * r.
Proof.
  intros V W Gs Gt. destruct (Req_dec v 0) as [-> |Nv]; [exists t; split; [exact Gt|ring]|].
  destruct (Req_dec w 0) as [-> |Nw]; [exists s; split; [exact Gs|ring]|].
  apply good_mean; auto. apply Rmult_lt_0_compat; lra.
Qed.

Lemma nice_add p q n k v w z : (p <= 999)%nat -> (q <= 999)%nat -> nice p q n v -> nice p q k w -> sn_add Debug n k = Ok z ->
  exists r t, nice p (S q) z r /\ good 3 t /\ r = (v + w) * t.
Proof.
  intros Hp Hq Hn Hk E. pose proof (or_introl eq_refl : real_build Debug) as HD.
  destruct (sn_is_zero n) eqn:Zn.
  { unfold sn_add in E. rewrite Zn in E. injection E as <-. exists w, 1. rewrite (nice_zero _ _ _ _ Hn Zn).
    split; [apply (nice_le p q); auto|]. split; [apply (good_le 0 3); [lia|apply good_0]|ring]. }
  destruct (sn_is_zero k) eqn:Zk.
  { unfold sn_add in E. rewrite Zn, Zk in E. injection E as <-. exists v, 1. rewrite (nice_zero _ _ _ _ Hk Zk).
    split; [apply (nice_le p q); auto|]. split; [apply (good_le 0 3); [lia|apply good_0]|ring]. }
  pose proof Hn as [En [[-> _]|(Tn & Vn & Fn & Pn)]]; [discriminate Zn|].
  pose proof Hk as [Ek [[-> _]|(Tk & Vk & Fk & Pk)]]; [discriminate Zk|].
  pose proof (ipow2_pos p) as Pp.
  destruct Pn as (On & Wn & _ & Ffn & tn & Gn & Cn). destruct Pk as (Ok_ & Wk & _ & Ffk & tk & Gk & Ck).
  assert (f64_backed n \/ f64_backed k \/ (posint n /\ posint k)) as [B|[B|[Bn Bk]]] by (destruct Tn, Tk; auto).
  1,2: (assert (f64_backed n \/ f64_backed k) as B' by auto;
    destruct (sn_add_rounds Debug (or_introl eq_refl) n k On Ok_ Wn Wk B' Ffn Ffk) as (z' & c & Ez & Ec & R);
    rewrite Ez in E; injection E as ->;
    rewrite sn_to_f64_eq in Ec by (left; reflexivity); injection Ec as <-;
    unfold sn_add in Ez; rewrite Zn, Zk, guard_real, (val_add_real Debug _ _ HD (backed_real _ _ B')) in Ez by exact HD; cbn [bind] in Ez; injection Ez as <-;
    rewrite wrap_real in *; cbn [nval val_f64] in R;
    destruct (nice_real p (S q) _ _ ltac:(lia) ltac:(lia) R ltac:(cbn [pow]; lra)) as (N & t & G & Et);
    destruct (mean0 1 v w tn tk ltac:(lra) ltac:(lra) Gn Gk) as (r & Gr & Er);
    exists (fR (f_add (val_f64 (nval n)) (val_f64 (nval k)))), (r * t);
    split; [exact N|]; split; [apply (good_le 2 3); [lia|]; exact (good_mul 1 1 r t Gr G)|];
    rewrite Et, Cn, Ck, Er; ring).
  destruct (sn_op_DS OAdd n k z (posint_intnum _ Bn) (posint_intnum _ Bk) ltac:(discriminate) ltac:(auto) E) as [S Iz]. cbn [sn_op] in S.
  pose proof (num_R_add n k z v w On Ok_ S En Ek) as Rz. exists (v + w), 1.
  split; [apply intnum_nice; [lia|exact Iz|exact Rz|cbn [pow]; lra]|]. split; [apply (good_le 0 3); [lia|apply good_0]|ring].
Qed.

Lemma nice_mul p q p' q' n k v w z : (p + p' <= 1000)%nat -> (q + q' <= 1000)%nat -> nice p q n v -> nice p' q' k w -> sn_mul Debug n k = Ok z ->
  exists r t, nice (p + p') (q + q') z r /\ good 3 t /\ r = v * w * t.
Proof.
  intros Hp Hq Hn Hk E. pose proof (or_introl eq_refl : real_build Debug) as HD.
  destruct (sn_is_one n) eqn:Zn.
  { unfold sn_mul in E. rewrite Zn in E. injection E as <-. exists w, 1. rewrite (nice_one _ _ _ _ Hn Zn).
    split; [apply (nice_le p' q'); auto; lia|]. split; [apply (good_le 0 3); [lia|apply good_0]|ring]. }
  destruct (sn_is_one k) eqn:Zk.
  { unfold sn_mul in E. rewrite Zn, Zk in E. injection E as <-. exists v, 1. rewrite (nice_one _ _ _ _ Hk Zk).
    split; [apply (nice_le p q); auto; lia|]. split; [apply (good_le 0 3); [lia|apply good_0]|ring]. }
  pose proof E as E0. unfold sn_mul in E. rewrite Zn, Zk, guard_real in E by (left; reflexivity). inv_bind E. injection E as <-.
  assert (nice (p + p') (q + q') sn_zero 0) as N0 by (split; [exact (num_R_int 0)|left; auto]).
  destruct (val_is_zero (nval n) || val_is_zero (nval k)) eqn:Z0.
  { unfold val_mul in Hb. rewrite Z0 in Hb. injection Hb as <-. exists 0, 1. split; [exact N0|].
    split; [apply (good_le 0 3); [lia|apply good_0]|].
    assert (v = 0 \/ w = 0) as [-> | ->]; [|ring|ring]. apply orb_prop in Z0 as [Z0|Z0]; [left|right].
    - destruct Hn as [_ [[_ ->]|(_ & V & _ & P)]]; [reflexivity|]. exfalso. pose proof (ipow2_pos p).
      destruct (part_nonzero _ _ _ _ P ltac:(lra)) as [_ K]. congruence.
    - destruct Hk as [_ [[_ ->]|(_ & V & _ & P)]]; [reflexivity|]. exfalso. pose proof (ipow2_pos p').
      destruct (part_nonzero _ _ _ _ P ltac:(lra)) as [_ K]. congruence. }
  pose proof Hn as [En [[-> _]|(Tn & Vn & Fn & Pn)]]; [discriminate Z0|].
  pose proof Hk as [Ek [[-> _]|(Tk & Vk & Fk & Pk)]]; [rewrite orb_true_r in Z0; discriminate Z0|].
  pose proof (ipow2_pos p) as Pp. pose proof (ipow2_pos p') as Pp'. pose proof (pow2_pos q) as Pq. pose proof (pow2_pos q') as Pq'.
  destruct Pn as (On & Wn & _ & Ffn & tn & Gn & Cn). destruct Pk as (Ok_ & Wk & _ & Ffk & tk & Gk & Ck).
  assert (forall x y, / 2 ^ p <= x <= 2 ^ q -> / 2 ^ p' <= y <= 2 ^ q' -> / 2 ^ (p + p') <= x * y <= 2 ^ (q + q')) as MR.
  { intros x y X Y. rewrite !pow_add, Rinv_mult. split; apply Rmult_le_compat; lra. }
  assert (f64_backed n \/ f64_backed k \/ (posint n /\ posint k)) as [B|[B|[Bn Bk]]] by (destruct Tn, Tk; auto).
  1,2: (assert (f64_backed n \/ f64_backed k) as B' by auto;
    destruct (sn_mul_rounds Debug (or_introl eq_refl) n k On Ok_ Wn Wk B' Ffn Ffk) as (z' & c & Ez & Ec & R);
    rewrite E0 in Ez; injection Ez as <-;
    rewrite sn_to_f64_eq in Ec by (left; reflexivity); injection Ec as <-;
    apply orb_false_elim in Z0 as [Z1 Z2];
    rewrite (val_mul_real Debug _ _ HD (backed_real _ _ B') Z1 Z2) in Hb; injection Hb as <-;
    rewrite wrap_real in *; cbn [nval val_f64] in R;
    destruct (nice_real (p + p') (q + q') _ _ ltac:(lia) ltac:(lia) R (MR _ _ Fn Fk)) as (N & t & G & Et);
    exists (fR (f_mul (val_f64 (nval n)) (val_f64 (nval k)))), (tn * tk * t);
    split; [exact N|]; split; [exact (good_mul 2 1 _ t (good_mul 1 1 tn tk Gn Gk) G)|];
    rewrite Et, Cn, Ck; ring).
  destruct (sn_op_DS OMul n k _ (posint_intnum _ Bn) (posint_intnum _ Bk) ltac:(discriminate) ltac:(auto) E0) as [S Iz]. cbn [sn_op] in S.
  pose proof (num_R_mul n k _ v w On Ok_ S En Ek) as Rz. exists (v * w), 1. pose proof (MR v w Vn Vk) as M. pose proof (ipow2_pos (p + p')).
  split; [apply intnum_nice; [lia|exact Iz|exact Rz|lra]|]. split; [apply (good_le 0 3); [lia|apply good_0]|ring].
Qed.

(** ** jets: the value and all derivatives at one point *)
Definition jet_t := nat -> R.
Definition sh (a : jet_t) : jet_t := fun k => a (S k).
Definition addS (a b : jet_t) : jet_t := fun k => a k + b k.
Fixpoint mulS (a b : jet_t) (n : nat) : R :=
  match n with O => a O * b O | S n' => mulS (sh a) b n' + mulS a (sh b) n' end.
Definition cstS (v : R) : jet_t := fun k => match k with O => v | _ => 0 end.
Definition varS (v : R) : jet_t := fun k => match k with O => v | 1%nat => 1 | _ => 0 end.
Definition nn (a : jet_t) : Prop := forall k, 0 <= a k.
(** [b] is [a] up to [k] roundings of every component *)
Definition cl (k : nat) (a b : jet_t) : Prop := forall n, exists t, good k t /\ b n = a n * t.

Lemma mulS_ext n : forall a b a' b', (forall k, a k = a' k) -> (forall k, b k = b' k) -> mulS a b n = mulS a' b' n.
Proof.
  induction n as [|n IH]; intros a b a' b' A B; cbn [mulS]; [rewrite A, B; reflexivity|].
  f_equal; apply IH; unfold sh; auto.
Qed.
Lemma mulS_0_l n : forall a b, (forall k, a k = 0) -> mulS a b n = 0.
Proof. induction n as [|n IH]; intros a b A; cbn [mulS]; [rewrite A; ring|]. rewrite !IH; [ring|exact A|intros k; apply A]. Qed.
Lemma mulS_comm n : forall a b, mulS a b n = mulS b a n.
Proof. induction n as [|n IH]; intros a b; cbn [mulS]; [ring|]. rewrite (IH (sh a) b), (IH a (sh b)). ring. Qed.
Lemma mulS_1_l n : forall b, mulS (cstS 1) b n = b n.
Proof.
  induction n as [|n IH]; intros b; cbn [mulS]; [cbn; ring|]. rewrite IH, mulS_0_l by reflexivity. unfold sh. ring.
Qed.
Lemma nn_sh a : nn a -> nn (sh a). Proof. intros A k. apply A. Qed.
Lemma nn_add a b : nn a -> nn b -> nn (addS a b).
Proof. intros A B k. specialize (A k). specialize (B k). unfold addS. lra. Qed.
Lemma nn_mul a b : nn a -> nn b -> nn (mulS a b).
Proof.
  intros A B n. revert a b A B. induction n as [|n IH]; intros a b A B; cbn [mulS].
  - apply Rmult_le_pos; auto.
  - pose proof (IH (sh a) b (nn_sh a A) B). pose proof (IH a (sh b) A (nn_sh b B)). lra.
Qed.
Lemma nn_cst v : 0 <= v -> nn (cstS v). Proof. intros V [|k]; cbn; lra. Qed.

Lemma cl_refl k a : cl k a a.
Proof. intros n. exists 1. split; [apply (good_le 0 k); [lia|apply good_0]|ring]. Qed.
Lemma cl_ext k a b b' : (forall n, b n = b' n) -> cl k a b -> cl k a b'.
Proof. intros E H n. destruct (H n) as (t & G & K). exists t. rewrite <- E. auto. Qed.
Lemma cl_ext_l k a a' b : (forall n, a n = a' n) -> cl k a b -> cl k a' b.
Proof. intros E H n. destruct (H n) as (t & G & K). exists t. rewrite <- E. auto. Qed.
Lemma cl_le i k a b : (i <= k)%nat -> cl i a b -> cl k a b.
Proof. intros L H n. destruct (H n) as (t & G & K). exists t. split; [apply (good_le i k t L G)|exact K]. Qed.
Lemma cl_trans i j a b c : cl i a b -> cl j b c -> cl (i + j) a c.
Proof.
  intros H K n. destruct (H n) as (t & G & E). destruct (K n) as (s & G' & E').
  exists (t * s). split; [apply good_mul; assumption|]. rewrite E', E. ring.
Qed.
Lemma cl_sh k a b : cl k a b -> cl k (sh a) (sh b). Proof. intros H n. apply (H (S n)). Qed.
Lemma cl_add k a b a' b' : nn a -> nn b -> cl k a a' -> cl k b b' -> cl k (addS a b) (addS a' b').
Proof.
  intros A B H K n. destruct (H n) as (t & G & E). destruct (K n) as (s & G' & E').
  destruct (mean0 k (a n) (b n) t s (A n) (B n) G G') as (r & Gr & Er). exists r. split; [exact Gr|].
  unfold addS. rewrite E, E'. exact Er.
Qed.
Lemma cl_mul i j a b a' b' : nn a -> nn b -> cl i a a' -> cl j b b' -> cl (i + j) (mulS a b) (mulS a' b').
Proof.
  intros A B H K n. revert a b a' b' A B H K. induction n as [|n IH]; intros a b a' b' A B H K; cbn [mulS].
  - destruct (H O) as (t & G & E). destruct (K O) as (s & G' & E'). exists (t * s). split; [apply good_mul; assumption|]. rewrite E, E'. ring.
  - destruct (IH (sh a) b (sh a') b' (nn_sh a A) B (cl_sh _ _ _ H) K) as (t & G & E).
    destruct (IH a (sh b) a' (sh b') A (nn_sh b B) H (cl_sh _ _ _ K)) as (s & G' & E').
    rewrite E, E'. apply mean0; auto; [apply nn_mul; [apply nn_sh|]; assumption|apply nn_mul; [|apply nn_sh]; assumption].
Qed.

(** the jet of an expression in [x] at [rho] (for sums and products) *)
Fixpoint jet (rho : string -> R) (x : string) (e : expr) : jet_t :=
  match e with
  | Expr r c =>
      match r with
      | Operand (Num n) => cstS (match num_R n with Some v => v | None => 0 end)
      | Operand (Var y) => if String.eqb y x then varS (rho y) else cstS (rho y)
      | Operator op =>
          match map (jet rho x) c with
          | [a; b] => match descriptor op with OAdd => addS a b | OMul => mulS a b | _ => cstS 0 end
          | _ => cstS 0
          end
      end
  end.
Lemma jet_add rho x a b : jet rho x (e_add a b) = addS (jet rho x a) (jet rho x b). Proof. reflexivity. Qed.
Lemma jet_mul rho x a b : jet rho x (e_mul a b) = mulS (jet rho x a) (jet rho x b). Proof. reflexivity. Qed.
Lemma jet_num rho x n v : num_R n = Some v -> jet rho x (e_num n) = cstS v.
Proof. intros E. cbn [jet e_num]. rewrite E. reflexivity. Qed.

Lemma jet_zero rho x : jet rho x e_zero = cstS 0.
Proof. exact (jet_num rho x (sn_of_i64 0) 0 (num_R_int 0)). Qed.
Lemma jet_one rho x : jet rho x e_one = cstS 1.
Proof. exact (jet_num rho x (sn_of_i64 1) 1 (num_R_int 1)). Qed.

(** ** the class of the expressions that occur, with the measures *)
Section Class.
Variable B : nat.

Inductive pz : nat -> nat -> nat -> nat -> expr -> Prop :=
| pz_num n v d l c h : (1 <= d)%nat -> nice (B * d) (B * d + l) n v -> pz d l c h (e_num n)
| pz_var y d l c h : (1 <= d)%nat -> pz d l c h (e_var y)
| pz_add a b d l c h : pz d l c h a -> pz d l c h b -> pz d (S l) (3 + c) h (e_add a b)
| pz_mul a b d l c d' l' c' h : pz d l c h a -> pz d' l' c' h b -> pz (d + d') (l + l') (3 + (c + c')) (3 + h) (e_mul a b).

Lemma pz_le d l c h e : pz d l c h e -> forall d' l' c' h', (d <= d')%nat -> (l <= l')%nat -> (c <= c')%nat -> (h <= h')%nat -> pz d' l' c' h' e.
Proof.
  induction 1 as [n v d l c h Hd N|y d l c h Hd|a b d l c h Ha IHa Hb IHb|a b d l c d2 l2 c2 h Ha IHa Hb IHb]; intros d' l' c' h' L1 L2 L3 L4.
  - apply (pz_num n v); [lia|]. apply (nice_le (B * d) (B * d + l)); [nia|nia|exact N].
  - apply pz_var. lia.
  - destruct l' as [|l']; [lia|]. replace c' with (3 + (c' - 3))%nat by lia. apply pz_add; [apply IHa|apply IHb]; lia.
  - replace d' with (d + (d' - d))%nat by lia. replace l' with (l + (l' - l))%nat by lia. replace c' with (3 + (c + (c' - 3 - c)))%nat by lia.
    replace h' with (3 + (h' - 3))%nat by lia. apply pz_mul; [apply IHa|apply IHb]; lia.
Qed.
Lemma hop_var o y : ~ has_op o (e_var y).
Proof. intros (op & c & D & S). inversion S; subst; contradiction. Qed.
Lemma pz_wf d l c h e : pz d l c h e -> wf e /\ ~ has_op OSub e.
Proof.
  induction 1 as [n v d l c h Hd N|y d l c h Hd|a b d l c h Ha [Wa Sa] Hb [Wb Sb]|a b d l c d2 l2 c2 h Ha [Wa Sa] Hb [Wb Sb]].
  - split; [|apply hop_num]. apply wf_num. exact (proj1 (nice_ok _ _ _ _ N)).
  - split; [apply wf_var|apply hop_var].
  - split; [apply wf_mk2; auto|unfold e_add; hop].
  - split; [apply wf_mk2; auto|unfold e_mul; hop].
Qed.
Lemma pz_nn d l c h e rho x : nonneg rho -> pz d l c h e -> nn (jet rho x e).
Proof.
  intros P. induction 1 as [n v d l c h Hd N|y d l c h Hd|a b d l c h Ha IHa Hb IHb|a b d l c d2 l2 c2 h Ha IHa Hb IHb].
  - rewrite (jet_num rho x n v (proj1 N)). apply nn_cst, (nice_nonneg _ _ _ _ N).
  - cbn [jet e_var]. specialize (P y). destruct (String.eqb y x); [|apply nn_cst, P]. intros [|[|k]]; cbn; lra.
  - rewrite jet_add. apply nn_add; assumption.
  - rewrite jet_mul. apply nn_mul; assumption.
Qed.

Lemma pz_num_inv d l c h k n : pz d l c h (Expr (Operand (Num n)) k) -> exists v, k = [] /\ (1 <= d)%nat /\ nice (B * d) (B * d + l) n v.
Proof. intros H. inversion H; subst; eauto. Qed.
Lemma pz_zero d l c h e rho x : pz d l c h e -> is_zero e = true -> forall k, jet rho x e k = 0.
Proof.
  intros H Z k. inversion H; subst; try discriminate Z. rewrite (jet_num rho x n v (proj1 H1)), (nice_zero _ _ _ _ H1 Z).
  destruct k; reflexivity.
Qed.
Lemma pz_one d l c h e rho x : pz d l c h e -> is_one e = true -> forall k, jet rho x e k = cstS 1 k.
Proof.
  intros H Z k. inversion H; subst; try discriminate Z. rewrite (jet_num rho x n v (proj1 H1)), (nice_one _ _ _ _ H1 Z). reflexivity.
Qed.
Lemma pz_e_zero d l c h : (1 <= d)%nat -> pz d l c h e_zero.
Proof. intros H. apply (pz_num (sn_of_i64 0) 0); [exact H|]. split; [exact (num_R_int 0)|left; auto]. Qed.
Lemma pz_e_one d l c h : (1 <= d)%nat -> (B * d + l <= 1000)%nat -> pz d l c h e_one.
Proof.
  intros H L. apply (pz_num (sn_of_i64 1) 1); [exact H|]. apply (nice_int _ _ 1); auto; try lia. apply pow_R1_Rle. lra.
Qed.
Lemma pz_d d l c h e : pz d l c h e -> (1 <= d)%nat.
Proof. induction 1; lia. Qed.

Lemma add_step d l c h a b z : (B * d + l <= 900)%nat -> pz d l c h a -> pz d l c h b -> ar2 Debug OAdd a b z ->
  pz d (S l) (3 + c) h z /\ forall rho x, nonneg rho -> cl 3 (addS (jet rho x a) (jet rho x b)) (jet rho x z).
Proof.
  intros L Ha Hb H. inversion H; subst; clear H.
  - destruct (pz_num_inv _ _ _ _ _ _ Ha) as (va & -> & Hd & Na). destruct (pz_num_inv _ _ _ _ _ _ Hb) as (w & -> & _ & Nb).
    cbn [sn_op] in H1. destruct (nice_add (B * d) (B * d + l) _ _ _ _ _ ltac:(lia) ltac:(lia) Na Nb H1) as (r & t & Nz & G & E).
    split; [apply (pz_num _ r); [exact Hd|]; replace (B * d + S l)%nat with (S (B * d + l)) by lia; exact Nz|].
    intros rho x0 _. rewrite (jet_num rho x0 v r (proj1 Nz)).
    change (cl 3 (addS (jet rho x0 (e_num x)) (jet rho x0 (e_num y))) (cstS r)).
    rewrite (jet_num rho x0 x va (proj1 Na)), (jet_num rho x0 y w (proj1 Nb)).
    intros [|k]; exists t; (split; [exact G|]); unfold addS; cbn [cstS]; [exact E|ring].
  - split; [apply (pz_le d l c h); auto; lia|]. intros rho x _. apply (cl_ext_l 3 (jet rho x z)); [|apply cl_refl].
    intros k. unfold addS. rewrite (pz_zero _ _ _ _ _ rho x Ha H1). ring.
  - split; [apply (pz_le d l c h); auto; lia|]. intros rho x _. apply (cl_ext_l 3 (jet rho x z)); [|apply cl_refl].
    intros k. unfold addS. rewrite (pz_zero _ _ _ _ _ rho x Hb H2). ring.
  - split; [apply pz_add; assumption|]. intros rho x _. rewrite jet_add. apply cl_refl.
Qed.

Lemma mul_step d l c h d' l' c' a b z : (B * (d + d') + (l + l') <= 900)%nat -> pz d l c h a -> pz d' l' c' h b -> ar2 Debug OMul a b z ->
  pz (d + d') (l + l') (3 + (c + c')) (3 + h) z /\ forall rho x, nonneg rho -> cl 3 (mulS (jet rho x a) (jet rho x b)) (jet rho x z).
Proof.
  intros L Ha Hb H. pose proof (pz_d _ _ _ _ _ Ha) as D1. inversion H; subst; clear H.
  - destruct (pz_num_inv _ _ _ _ _ _ Ha) as (va & -> & Hd & Na). destruct (pz_num_inv _ _ _ _ _ _ Hb) as (w & -> & _ & Nb).
    cbn [sn_op] in H1. destruct (nice_mul (B * d) (B * d + l) (B * d') (B * d' + l') _ _ _ _ _ ltac:(lia) ltac:(lia) Na Nb H1) as (r & t & Nz & G & E).
    split; [apply (pz_num _ r); [lia|]; replace (B * (d + d') + (l + l'))%nat with ((B * d + l) + (B * d' + l'))%nat by lia; replace (B * (d + d'))%nat with (B * d + B * d')%nat by lia; exact Nz|].
    intros rho x0 _. rewrite (jet_num rho x0 v r (proj1 Nz)).
    change (cl 3 (mulS (jet rho x0 (e_num x)) (jet rho x0 (e_num y))) (cstS r)).
    rewrite (jet_num rho x0 x va (proj1 Na)), (jet_num rho x0 y w (proj1 Nb)).
    intros [|k]; exists t; (split; [exact G|]); cbn [mulS]; [exact E|]. rewrite mulS_0_l by reflexivity.
    rewrite (mulS_comm k), mulS_0_l by reflexivity. cbn [cstS]. ring.
  - split; [apply pz_e_zero; lia|]. intros rho x _. apply (cl_ext_l 3 (jet rho x e_zero)); [|apply cl_refl].
    intros k. rewrite jet_zero. apply orb_prop in H1 as [Z|Z].
    + rewrite mulS_0_l by (intros i; exact (pz_zero _ _ _ _ _ rho x Ha Z i)). destruct k; reflexivity.
    + rewrite mulS_comm, mulS_0_l by (intros i; exact (pz_zero _ _ _ _ _ rho x Hb Z i)). destruct k; reflexivity.
  - split; [apply (pz_le d' l' c' h); auto; lia|]. intros rho x _. apply (cl_ext_l 3 (jet rho x z)); [|apply cl_refl].
    intros k. rewrite (mulS_ext k _ _ (cstS 1) (jet rho x z) (pz_one _ _ _ _ _ rho x Ha H2) (fun i => eq_refl)), mulS_1_l. reflexivity.
  - split; [apply (pz_le d l c h); auto; lia|]. intros rho x _. apply (cl_ext_l 3 (jet rho x z)); [|apply cl_refl].
    intros k. rewrite mulS_comm, (mulS_ext k _ _ (cstS 1) (jet rho x z) (pz_one _ _ _ _ _ rho x Hb H3) (fun i => eq_refl)), mulS_1_l. reflexivity.
  - split; [apply pz_mul; assumption|]. intros rho x _. rewrite jet_mul. apply cl_refl.
Qed.

(** ** simplification *)
Lemma agg2 t a b z : arity t = 2%nat -> num_aggregate Debug (mk2 t a b) = Ok z ->
  exists a' b', num_aggregate Debug a = Ok a' /\ num_aggregate Debug b = Ok b' /\ ar2 Debug t a' b' z.
Proof.
  intros Ht H. rewrite agg_mk2 in H by exact Ht. inv_bind H. inv_bind H.
  eexists; eexists; split; [eassumption|]. split; [eassumption|]. apply rule2_ar; assumption.
Qed.

Lemma pz_agg d l c h e : pz d l c h e -> (B * d + l <= 900)%nat -> forall z, num_aggregate Debug e = Ok z ->
  pz d l c h z /\ forall rho x, nonneg rho -> cl c (jet rho x e) (jet rho x z).
Proof.
  induction 1 as [n v d l c h Hd N|y d l c h Hd|a b d l c h Ha IHa Hb IHb|a b d l c d2 l2 c2 h Ha IHa Hb IHb]; intros L z E.
  - injection E as <-. split; [apply (pz_num n v); assumption|]. intros. apply cl_refl.
  - injection E as <-. split; [apply pz_var; assumption|]. intros. apply cl_refl.
  - destruct (agg2 OAdd a b z eq_refl E) as (a' & b' & Ea & Eb & St).
    destruct (IHa ltac:(lia) a' Ea) as [Pa Ca]. destruct (IHb ltac:(lia) b' Eb) as [Pb Cb].
    destruct (add_step d l c h a' b' z ltac:(lia) Pa Pb St) as [Pz Cz]. split; [exact Pz|].
    intros rho x P. rewrite jet_add. replace (3 + c)%nat with (c + 3)%nat by lia.
    apply (cl_trans c 3 _ (addS (jet rho x a') (jet rho x b'))); [|apply Cz, P].
    apply cl_add; [exact (pz_nn _ _ _ _ _ rho x P Ha)|exact (pz_nn _ _ _ _ _ rho x P Hb)|apply Ca, P|apply Cb, P].
  - destruct (agg2 OMul a b z eq_refl E) as (a' & b' & Ea & Eb & St).
    destruct (IHa ltac:(lia) a' Ea) as [Pa Ca]. destruct (IHb ltac:(lia) b' Eb) as [Pb Cb].
    destruct (mul_step d l c h d2 l2 c2 a' b' z ltac:(lia) Pa Pb St) as [Pz Cz]. split; [exact Pz|].
    intros rho x P. rewrite jet_mul. replace (3 + (c + c2))%nat with (c + c2 + 3)%nat by lia.
    apply (cl_trans (c + c2) 3 _ (mulS (jet rho x a') (jet rho x b'))); [|apply Cz, P].
    apply cl_mul; [exact (pz_nn _ _ _ _ _ rho x P Ha)|exact (pz_nn _ _ _ _ _ rho x P Hb)|apply Ca, P|apply Cb, P].
Qed.

(** ** differentiation *)
Lemma pz_deriv d l c h e x : pz d l c h e -> (B * d + l + h <= 900)%nat -> forall z, deriv Debug x e = Ok z ->
  pz d (l + h) (c + h) h z /\ num_aggregate Debug z = Ok z /\
  forall rho, nonneg rho -> cl (c + h) (sh (jet rho x e)) (jet rho x z).
Proof.
  induction 1 as [n v d l c h Hd N|y d l c h Hd|a b d l c h Ha IHa Hb IHb|a b d l c d2 l2 c2 h Ha IHa Hb IHb]; intros L z E.
  - unfold e_num in E. rewrite deriv_num in E. injection E as <-. split; [apply pz_e_zero, Hd|]. split; [reflexivity|].
    intros rho _. apply (cl_ext_l _ (jet rho x e_zero)); [|apply cl_refl]. intros k.
    rewrite jet_zero, (jet_num rho x n v (proj1 N)). destruct k; reflexivity.
  - unfold e_var in E. rewrite deriv_var in E. injection E as <-. rewrite String.eqb_sym. destruct (String.eqb y x) eqn:Exy.
    + split; [apply pz_e_one; [exact Hd|lia]|]. split; [reflexivity|].
      intros rho _. apply (cl_ext_l _ (jet rho x e_one)); [|apply cl_refl]. intros k.
      rewrite jet_one. unfold sh. cbn [jet e_var]. rewrite Exy. destruct k; reflexivity.
    + split; [apply pz_e_zero; exact Hd|]. split; [reflexivity|].
      intros rho _. apply (cl_ext_l _ (jet rho x e_zero)); [|apply cl_refl]. intros k.
      rewrite jet_zero. unfold sh. cbn [jet e_var]. rewrite Exy. destruct k; reflexivity.
  - unfold e_add in E. rewrite deriv_mk2 in E by reflexivity. inv_bind E. inv_bind E.
    rename a0 into db, a1 into da. cbn [raw2] in E.
    destruct (IHa ltac:(lia) da Hb1) as (Pa & Na & Ca). destruct (IHb ltac:(lia) db Hb0) as (Pb & Nb & Cb).
    destruct (agg2 OAdd da db z eq_refl E) as (a' & b' & Ea & Eb & St). rewrite Na in Ea. injection Ea as <-. rewrite Nb in Eb. injection Eb as <-.
    destruct (add_step d (l + h) (c + h) h da db z ltac:(lia) Pa Pb St) as [Pz Cz].
    split; [apply (pz_le _ _ _ _ _ Pz); lia|]. split.
    { destruct (pz_wf _ _ _ _ _ (pz_add _ _ _ _ _ _ Pa Pb)) as [W1 W2]. exact (agg_idem Debug _ z W1 W2 E). }
    intros rho P. replace (3 + c + h)%nat with (c + h + 3)%nat by lia.
    apply (cl_trans (c + h) 3 _ (addS (jet rho x da) (jet rho x db))); [|apply Cz, P].
    change (cl (c + h) (addS (sh (jet rho x a)) (sh (jet rho x b))) (addS (jet rho x da) (jet rho x db))).
    apply cl_add; [apply nn_sh, (pz_nn _ _ _ _ _ rho x P Ha)|apply nn_sh, (pz_nn _ _ _ _ _ rho x P Hb)|apply Ca, P|apply Cb, P].
  - unfold e_mul in E. rewrite deriv_mk2 in E by reflexivity. inv_bind E. inv_bind E.
    rename a0 into db, a1 into da. cbn [raw2] in E.
    destruct (IHa ltac:(lia) da Hb1) as (Pa & Na & Ca). destruct (IHb ltac:(lia) db Hb0) as (Pb & Nb & Cb).
    destruct (agg2 OAdd (e_mul da b) (e_mul a db) z eq_refl E) as (m1 & m2 & E1 & E2 & St).
    destruct (agg2 OMul da b m1 eq_refl E1) as (da' & b' & Ea & Eb & S1). rewrite Na in Ea. injection Ea as <-.
    destruct (agg2 OMul a db m2 eq_refl E2) as (a' & db' & Ea' & Eb' & S2). rewrite Nb in Eb'. injection Eb' as <-.
    destruct (pz_agg d2 l2 c2 h b Hb ltac:(lia) b' Eb) as [Pb' Cb']. destruct (pz_agg d l c h a Ha ltac:(lia) a' Ea') as [Pa' Ca'].
    destruct (mul_step d (l + h) (c + h) h d2 l2 c2 da b' m1 ltac:(lia) Pa Pb' S1) as [P1 C1].
    destruct (mul_step d l c h d2 (l2 + h) (c2 + h) a' db m2 ltac:(lia) Pa' Pb S2) as [P2 C2].
    apply (fun H => pz_le _ _ _ _ _ H (d + d2) (l + l2 + h) (3 + (c + c2 + h)) (3 + h)) in P1; try lia.
    apply (fun H => pz_le _ _ _ _ _ H (d + d2) (l + l2 + h) (3 + (c + c2 + h)) (3 + h)) in P2; try lia.
    destruct (add_step (d + d2) (l + l2 + h) (3 + (c + c2 + h)) (3 + h) m1 m2 z ltac:(lia) P1 P2 St) as [Pz Cz].
    split; [apply (pz_le _ _ _ _ _ Pz); lia|]. split.
    { assert (pz (d + d2) (S (l + l2 + h)) (3 + (3 + (c + c2 + h))) (3 + h) (e_add (e_mul da b) (e_mul a db))) as Q.
      { apply pz_add.
        - apply (pz_le (d + d2) (l + h + l2) (3 + (c + h + c2)) (3 + h)); try lia. apply pz_mul; assumption.
        - apply (pz_le (d + d2) (l + (l2 + h)) (3 + (c + (c2 + h))) (3 + h)); try lia. apply pz_mul; assumption. }
      destruct (pz_wf _ _ _ _ _ Q) as [W1 W2]. exact (agg_idem Debug _ z W1 W2 E). }
    intros rho P. pose proof (pz_nn _ _ _ _ _ rho x P Ha) as Nja. pose proof (pz_nn _ _ _ _ _ rho x P Hb) as Njb.
    replace (3 + (c + c2) + (3 + h))%nat with (c + c2 + h + 3 + 3)%nat by lia.
    apply (cl_trans (c + c2 + h + 3) 3 _ (addS (jet rho x m1) (jet rho x m2))); [|apply Cz, P].
    change (cl (c + c2 + h + 3) (addS (mulS (sh (jet rho x a)) (jet rho x b)) (mulS (jet rho x a) (sh (jet rho x b)))) (addS (jet rho x m1) (jet rho x m2))).
    apply cl_add; [apply nn_mul; [apply nn_sh|]; assumption|apply nn_mul; [|apply nn_sh]; assumption| |].
    + apply (cl_trans (c + c2 + h) 3 _ (mulS (jet rho x da) (jet rho x b'))); [|apply C1, P].
      replace (c + c2 + h)%nat with ((c + h) + c2)%nat by lia. apply cl_mul; [apply nn_sh; assumption|assumption|apply Ca, P|apply Cb', P].
    + apply (cl_trans (c + c2 + h) 3 _ (mulS (jet rho x a') (jet rho x db))); [|apply C2, P].
      replace (c + c2 + h)%nat with (c + (c2 + h))%nat by lia. apply cl_mul; [assumption|apply nn_sh; assumption|apply Ca', P|apply Cb, P].
Qed.

(** the j-th derivative *)
Lemma pz_deriv_n x n : forall d l c h e z, pz d l c h e -> (B * d + l + n * h <= 900)%nat -> deriv_n Debug x n e = Ok z ->
  pz d (l + n * h) (c + n * h) h z /\ exists k, (k <= n * (c + n * h))%nat /\
  forall rho, nonneg rho -> cl k (fun i => jet rho x e (n + i)%nat) (jet rho x z).
Proof.
  induction n as [|n IH]; intros d l c h e z H L E.
  - injection E as <-. rewrite Nat.mul_0_l, !Nat.add_0_r. split; [exact H|]. exists O. split; [lia|]. intros rho P. apply cl_refl.
  - cbn [deriv_n] in E. inv_bind E. destruct (pz_deriv d l c h e x H ltac:(lia) _ Hb) as (P1 & _ & C1).
    destruct (IH d (l + h)%nat (c + h)%nat h _ z P1 ltac:(lia) E) as (P2 & k & Hk & C2).
    split; [apply (pz_le _ _ _ _ _ P2); lia|]. exists (c + h + k)%nat. split; [nia|]. intros rho P.
    apply (cl_trans (c + h) k _ (fun i => jet rho x a (n + i)%nat)); [|apply C2, P].
    intros i. destruct (C1 rho P (n + i)%nat) as (t & G & Et). exists t. split; [exact G|]. rewrite Et. reflexivity.
Qed.
End Class.

(** ** jets are the real derivatives *)
Lemma mulS_derive n : forall (a b : R -> jet_t) t,
  (forall k s, is_derive (fun s => a s k) s (a s (S k))) -> (forall k s, is_derive (fun s => b s k) s (b s (S k))) ->
  is_derive (fun s => mulS (a s) (b s) n) t (mulS (a t) (b t) (S n)).
Proof.
  induction n as [|n IH]; intros a b t A B.
  - change (is_derive (fun s => a s O * b s O) t (a t 1%nat * b t O + a t O * b t 1%nat)).
    apply (is_derive_mult (fun s => a s O) (fun s => b s O) t _ _ (A O t) (B O t)). intros; apply Rmult_comm.
  - change (is_derive (fun s => mulS (sh (a s)) (b s) n + mulS (a s) (sh (b s)) n) t
      (mulS (sh (a t)) (b t) (S n) + mulS (a t) (sh (b t)) (S n))).
    apply (is_derive_plus (fun s => mulS (sh (a s)) (b s) n) (fun s => mulS (a s) (sh (b s)) n)).
    + apply (IH (fun s => sh (a s)) b); [intros k s; apply (A (S k))|exact B].
    + apply (IH a (fun s => sh (b s))); [exact A|intros k s; apply (B (S k))].
Qed.
Lemma derive_cst (v t : R) : is_derive (fun _ => v) t 0.
Proof. exact (is_derive_const v t). Qed.
Lemma derive_id (t : R) : is_derive (fun s : R => s) t 1.
Proof. exact (is_derive_id t). Qed.
Lemma jet_derive B d l c h e rho x : pz B d l c h e -> forall n t, is_derive (fun s => jet (upd rho x s) x e n) t (jet (upd rho x t) x e (S n)).
Proof.
  induction 1 as [k v d l c h Hd N|y d l c h Hd|a b d l c h Ha IHa Hb IHb|a b d l c d2 l2 c2 h Ha IHa Hb IHb]; intros n t.
  - cbn [jet e_num]. destruct n; cbn [cstS]; apply derive_cst.
  - cbn [jet e_var]. destruct (String.eqb y x) eqn:E.
    + apply String.eqb_eq in E as ->. destruct n as [|[|n]]; cbn [varS].
      * apply (is_derive_ext (fun s => s)); [intros s; symmetry; apply upd_same|apply derive_id].
      * apply derive_cst.
      * apply derive_cst.
    + apply String.eqb_neq in E. destruct n as [|n]; cbn [cstS]; [|apply derive_cst].
      apply (is_derive_ext (fun _ => rho y)); [intros s; symmetry; apply upd_other, E|apply derive_cst].
  - change (is_derive (fun s => jet (upd rho x s) x a n + jet (upd rho x s) x b n) t (jet (upd rho x t) x a (S n) + jet (upd rho x t) x b (S n))).
    apply (is_derive_plus (fun s => jet (upd rho x s) x a n) (fun s => jet (upd rho x s) x b n)); [apply IHa|apply IHb].
  - apply (mulS_derive n (fun s => jet (upd rho x s) x a) (fun s => jet (upd rho x s) x b)); auto.
Qed.
Lemma jet_ext B d l c h e rho rho' x : (forall y, rho y = rho' y) -> pz B d l c h e -> forall n, jet rho x e n = jet rho' x e n.
Proof.
  intros E. induction 1 as [k v d l c h Hd N|y d l c h Hd|a b d l c h Ha IHa Hb IHb|a b d l c d2 l2 c2 h Ha IHa Hb IHb]; intros n.
  - reflexivity.
  - cbn [jet e_var]. rewrite E. reflexivity.
  - rewrite !jet_add. unfold addS. rewrite IHa, IHb. reflexivity.
  - rewrite !jet_mul. apply mulS_ext; assumption.
Qed.
Lemma upd_self rho x y : upd rho x (rho x) y = rho y.
Proof. unfold upd. destruct (String.eqb y x) eqn:E; [apply String.eqb_eq in E as ->|]; reflexivity. Qed.
Lemma jet_eval B d l c h e rho x : pz B d l c h e -> eval rho e = Some (jet rho x e O).
Proof.
  induction 1 as [k v d l c h Hd N|y d l c h Hd|a b d l c h Ha IHa Hb IHb|a b d l c d2 l2 c2 h Ha IHa Hb IHb].
  - rewrite (jet_num rho x k v (proj1 N)). exact (proj1 N).
  - cbn [jet e_var eval]. destruct (String.eqb y x); reflexivity.
  - unfold e_add at 1. rewrite eval_mk2, IHa, IHb. reflexivity.
  - unfold e_mul at 1. rewrite eval_mk2, IHa, IHb. reflexivity.
Qed.
Lemma jet_Derive_n B d l c h e rho x : pz B d l c h e -> forall n t, Derive_n (evalx rho x e) n t = jet (upd rho x t) x e n.
Proof.
  intros H. induction n as [|n IH]; intros t.
  - cbn [Derive_n]. unfold evalx. rewrite (jet_eval B d l c h e _ x H). reflexivity.
  - cbn [Derive_n]. rewrite (Derive_ext _ _ t IH). apply is_derive_unique. exact (jet_derive B d l c h e rho x H n t).
Qed.

(** ** what the user writes *)
Lemma const_nice B n r f : (2 <= B)%nat -> (B <= 1000)%nat -> num_R n = Some r -> nval n = Real f -> num_ok n -> rounds_to r f -> 1 <= r <= 4 -> nice B B n r.
Proof.
  intros H2 HB E En O1 R V. pose proof (pow2_le 2 B H2) as L2. pose proof (ipow2_le 0 B ltac:(lia)) as L1. replace (2 ^ 2) with 4 in L2 by ring. cbn [pow] in L1. rewrite Rinv_1 in L1.
  destruct (round_range r f B B R HB HB ltac:(lra)) as (I1 & F & W & G).
  split; [exact E|]. right. split; [right; exists f; exact En|]. split; [lra|]. rewrite En. split; [exact W|].
  split; [exact O1|]. rewrite En. split; [exact I1|]. split; [discriminate|]. split; [exact F|exact G].
Qed.
Lemma plain_nice B n : (2 <= B)%nat -> (B <= 1000)%nat -> plain_num B n -> exists v, nice B B n v.
Proof.
  intros H2 HB P. destruct P as [f If Ff V|z V Iz| |].
  - exists (fR f). destruct (nice_real B B (fR f) f HB HB (rounds_to_self f If Ff) V) as [N _]. exact N.
  - exists (IZR z). apply nice_int; auto; try lia. apply Rle_trans with (IZR (2 ^ Z.of_nat B)); [apply IZR_le; lia|].
    rewrite <- pow_IZR. lra.
  - exists PI. destruct PI_dec as [A C]. unfold pi_lo, pi_hi, Q2R in A, C. cbn [Qnum Qden] in A, C.
    apply (const_nice B sn_pi PI f_PI); auto; [exact (api_number_ok Debug _ (An_pi Debug))|exact rounds_PI|lra].
  - exists (exp 1). destruct E_dec as [A C].
    apply (const_nice B sn_e (exp 1) f_E); auto; [exact (api_number_ok Debug _ (An_e Debug))|exact rounds_E|lra].
Qed.
Lemma fpoly_d B e d l c h : fpoly B e d l c h -> (1 <= d)%nat.
Proof. induction 1; lia. Qed.
Lemma fpoly_pz B e d l c h : (2 <= B)%nat -> (B <= 1000)%nat -> fpoly B e d l c h -> pz B d l c h e.
Proof.
  intros H2 HB. induction 1 as [n P|y|a b d l c h d' l' c' h' Ha IHa Hb IHb|a b d l c h d' l' c' h' Ha IHa Hb IHb].
  - destruct (plain_nice B n H2 HB P) as (v & N). apply (pz_num B n v); [lia|]. rewrite Nat.mul_1_r, Nat.add_0_r. exact N.
  - apply pz_var. lia.
  - apply pz_add; [apply (pz_le B d l c h a IHa)|apply (pz_le B d' l' c' h' b IHb)]; lia.
  - apply pz_mul; [apply (pz_le B d l c h a IHa)|apply (pz_le B d' l' c' h' b IHb)]; lia.
Qed.
Lemma pz_subst B x n v d l c h e : nice B B n v -> pz B d l c h e -> pz B d l c h (subst x (e_num n) e).
Proof.
  intros N. induction 1 as [k w d l c h Hd Nk|y d l c h Hd|a b d l c h Ha IHa Hb IHb|a b d l c d2 l2 c2 h Ha IHa Hb IHb].
  - apply (pz_num B k w); assumption.
  - cbn [subst e_var]. destruct (String.eqb y x); [|apply pz_var, Hd]. apply (pz_num B n v); [exact Hd|].
    apply (nice_le B B); [nia|nia|exact N].
  - exact (pz_add B _ _ _ _ _ _ IHa IHb).
  - exact (pz_mul B _ _ _ _ _ _ _ _ _ IHa IHb).
Qed.

(** ** division by the factorial *)
Lemma nice_div p q n v k z : (p + 62 <= 1000)%nat -> (q <= 1000)%nat -> nice p q n v -> (0 < k <= 2 ^ 62)%Z -> sn_div Debug n (sn_of_i64 k) = Ok z ->
  exists r t, num_R z = Some r /\ good 3 t /\ r = v / IZR k * t.
Proof.
  intros Hp Hq Hn Hk E. pose proof (or_introl eq_refl : real_build Debug) as HD.
  assert (1 <= IZR k) as K1 by (apply (IZR_le 1); lia).
  assert (IZR k <= 2 ^ 62) as K2 by (rewrite pow_IZR; apply IZR_le; cbn; lia).
  assert (in_i64 k = true) as Ik by (apply in_i64_iff; unfold two63; lia).
  assert (num_ok (sn_of_i64 k)) as Kok by (apply (api_number_ok Debug), An_i64, Ik).
  assert (intnum n -> exists r t, num_R z = Some r /\ good 3 t /\ r = v / IZR k * t) as IC.
  { intros In. pose proof (sn_div_DS n (sn_of_i64 k) z In (ex_intro _ k (conj Ik eq_refl)) E) as S.
    pose proof (num_R_div n (sn_of_i64 k) z v (IZR k) (proj1 (nice_ok _ _ _ _ Hn)) Kok S (proj1 Hn) (num_R_int k)) as R.
    exists (v / IZR k), 1. split; [apply R; lra|]. split; [apply (good_le 0 3); [lia|apply good_0]|ring]. }
  pose proof Hn as [En [[-> _]|([T|T] & Vn & Fn & Pn)]]; [apply IC; exists 0%Z; split; reflexivity|apply IC, posint_intnum, T|].
  pose proof (ipow2_pos p) as Pp. destruct Pn as (On & Wn & _ & Ffn & tn & Gn & Cn).
  destruct (round_range (IZR k) (f_of_Z k) 0 62 (f_of_Z_rounds k) ltac:(lia) ltac:(lia) ltac:(cbn [pow] in *; lra)) as (Izk & Fk & Rk & tk & Gk & Ck).
  assert (/ 2 ^ 0 = 1) as P0 by (cbn; apply Rinv_1). rewrite P0 in Rk.
  destruct (sn_div_rounds Debug HD n (sn_of_i64 k) On Wn I (or_introl T) Ffn Fk ltac:(cbn; lra)) as (z' & c & Ez & Ec & R).
  rewrite E in Ez. injection Ez as <-. rewrite sn_to_f64_eq in Ec by exact HD. injection Ec as <-.
  destruct (part_nonzero false n v 1 (conj On (conj Wn (conj (fun H => match Bool.diff_false_true H with end) (conj Ffn (ex_intro _ tn (conj Gn Cn)))))) ltac:(lra)) as [_ Z0].
  unfold sn_div in E. rewrite guard_real, (val_div_real Debug _ _ HD (backed_real _ _ (or_introl T)) Z0) in E by exact HD. cbn [bind] in E. injection E as <-.
  rewrite wrap_real in *. cbn [nval val_f64 sn_of_i64 sn_of_val val_of_i64] in R |- *.
  set (g := fR (val_f64 (nval n))) in *. set (gk := fR (f_of_Z k)) in *.
  destruct (nice_real (p + 62) q _ _ ltac:(lia) Hq R) as (N & t & G & Et).
  { rewrite pow_add, Rinv_mult. pose proof (ipow2_pos 62). pose proof (pow2_pos 62).
    assert (/ 2 ^ 62 <= / gk <= 1) by (split; [apply Rinv_le_contravar; lra|rewrite <- Rinv_1; apply Rinv_le_contravar; lra]).
    unfold Rdiv. split; [apply Rmult_le_compat; lra|]. rewrite <- (Rmult_1_r (2 ^ q)). apply Rmult_le_compat; lra. }
  eexists. exists (tn * / tk * t). split; [exact (proj1 N)|]. pose proof (good_pos _ _ Gk).
  split; [exact (good_mul 2 1 _ t (good_mul 1 1 tn _ Gn (good_inv 1 tk Gk)) G)|].
  rewrite Et, Cn, Ck. field. lra.
Qed.

Lemma pz_div B d l c h s k z rho x : (B * d + l <= 900)%nat -> pz B d l c h s -> num_aggregate Debug s = Ok s -> (0 < k <= 2 ^ 62)%Z ->
  num_aggregate Debug (e_div s (e_of_i64 k)) = Ok z -> exists t, good 3 t /\ eval rho z = Some (jet rho x s O / IZR k * t).
Proof.
  intros L Hs Ns Hk E. destruct (agg2 ODiv s (e_of_i64 k) z eq_refl E) as (s' & k' & Es & Ek & St).
  rewrite Ns in Es. injection Es as <-. injection Ek as <-.
  assert (1 <= IZR k) as K1 by (apply (IZR_le 1); lia).
  assert (G0 : good 3 1) by (apply (good_le 0 3); [lia|apply good_0]).
  pose proof (jet_eval B d l c h s rho x Hs) as Ev.
  inversion St; subst; clear St.
  - destruct (pz_num_inv B _ _ _ _ _ _ Hs) as (va & -> & Hd & Na).
    destruct (nice_div (B * d) (B * d + l) x0 va k v ltac:(lia) ltac:(lia) Na Hk) as (r & t & R & G & Er); [assumption|].
    exists t. split; [exact G|]. change (jet rho x (Expr (Operand (Num x0)) []) O) with (jet rho x (e_num x0) O).
    rewrite (jet_num rho x x0 va (proj1 Na)). cbn [cstS]. rewrite <- Er. exact R.
  - exists 1. split; [exact G0|]. rewrite (pz_zero B _ _ _ _ _ rho x Hs); [|assumption]. rewrite eval_zero. f_equal. field. lra.
  - exists 1. split; [exact G0|]. unfold e_div. rewrite eval_mk2, Ev. unfold e_of_i64, e_num. rewrite eval_num, num_R_int. cbn [obind ev2].
    destruct (Req_EM_T (IZR k) 0); [lra|]. f_equal. ring.
Qed.

(** ** C92 *)
(** simplification: the value is right up to the counted roundings, wherever the variables
    are >= 0 *)
Theorem c92_simplify B e d l c h z rho : (2 <= B)%nat -> fpoly B e d l c h -> (B * d + l <= 900)%nat ->
  num_aggregate Debug e = Ok z -> nonneg rho ->
  exists v v', eval rho e = Some v /\ eval rho z = Some v' /\ 0 <= v /\ rounded c v v'.
Proof.
  intros H2 F L E P. assert (pz B d l c h e) as H.
  { apply fpoly_pz; auto. pose proof (fpoly_d _ _ _ _ _ _ F). nia. }
  destruct (pz_agg B d l c h e H L z E) as [Pz C]. destruct (C rho ""%string P O) as (t & G & Et).
  exists (jet rho "" e O), (jet rho "" z O). split; [exact (jet_eval B d l c h e rho _ H)|]. split; [exact (jet_eval B d l c h z rho _ Pz)|].
  split; [exact (pz_nn B d l c h e rho _ P H O)|]. exists t. split; [exact Et|exact G].
Qed.
Print Assumptions c92_simplify.

(** differentiation, any number of times *)
Theorem c92_derivative B e d l c h x n z rho : (2 <= B)%nat -> fpoly B e d l c h -> (B * d + l + n * h <= 900)%nat ->
  deriv_n Debug x n e = Ok z -> nonneg rho ->
  exists v', eval rho z = Some v' /\ rounded (n * (c + n * h)) (Derive_n (evalx rho x e) n (rho x)) v'.
Proof.
  intros H2 F L E P. assert (pz B d l c h e) as H.
  { apply fpoly_pz; auto. pose proof (fpoly_d _ _ _ _ _ _ F). nia. }
  destruct (pz_deriv_n B x n d l c h e z H L E) as (Pz & k & Hk & C). destruct (C rho P O) as (t & G & Et).
  exists (jet rho x z O). split; [exact (jet_eval _ _ _ _ _ z rho x Pz)|].
  rewrite (jet_Derive_n B d l c h e rho x H n (rho x)).
  exists t. split; [|exact (good_le k _ t Hk G)]. rewrite Et, Nat.add_0_r.
  f_equal. symmetry. apply (jet_ext B d l c h e); [|exact H]. intros y. apply upd_self.
Qed.
Print Assumptions c92_derivative.

(** Taylor expansion: coefficient j is f^(j)(a)/j! up to the counted roundings *)
Theorem c92_taylor B e d l c h x a av n t rho : (2 <= B)%nat -> fpoly B e d l c h -> plain_num B a -> (B * d + l + n * h <= 900)%nat ->
  taylor_expansion Debug e (e_var x) (e_num a) (Z.of_nat n) = Ok (ROk t) -> nonneg rho -> num_R a = Some av ->
  forall j, (j <= n)%nat -> exists cj v, nth_error (ex_coef t) j = Some cj /\ eval rho cj = Some v /\
    rounded ((j + 1) * (c + j * h) + 3) (Derive_n (evalx rho x e) j av / INR (fact j)) v.
Proof.
  intros H2 F Pa L E P Ea j Hj. assert (pz B d l c h e /\ B <= 900)%nat as [H HB].
  { assert (B <= 900)%nat by (pose proof (fpoly_d _ _ _ _ _ _ F); nia). split; [apply fpoly_pz; auto; lia|assumption]. }
  assert (n <= 20)%nat as Hn.
  { destruct (Nat.le_gt_cases n 20) as [K|K]; [exact K|]. exfalso.
    exact (proj1 (c34_debug_never_returns e (e_var x) (e_num a) (Z.of_nat n) t ltac:(lia)) E). }
  destruct (plain_nice B a H2 ltac:(lia) Pa) as (av' & Na). assert (av' = av) as -> by (pose proof (proj1 Na); congruence).
  apply c31_shape in E as (_ & _ & _ & _ & _ & Hc). destruct (Hc j Hj) as (dj & s & cj & E1 & E2 & E3 & E4).
  rewrite c31_factorial in E3 by lia.
  assert (j * h <= n * h)%nat as Jn by (apply Nat.mul_le_mono_r; exact Hj).
  destruct (pz_deriv_n B x j d l c h e dj H ltac:(lia) E1) as (Pd & k & Hk & C1).
  pose proof (pz_subst B x a av _ _ _ _ dj Na Pd) as Ps.
  assert (B * d + (l + j * h) <= 900)%nat as L' by lia.
  destruct (pz_agg B _ _ _ _ _ Ps L' s E2) as [Pz C2].
  assert (num_aggregate Debug s = Ok s) as Ns by (destruct (pz_wf B _ _ _ _ _ Ps) as [W1 W2]; exact (agg_idem Debug _ s W1 W2 E2)).
  assert (0 < factZ j <= 2 ^ 62)%Z as Fj.
  { pose proof (factZ_pos j). split; [lia|]. assert (factZ j <= factZ 20)%Z by (unfold factZ; apply inj_le, fact_le; lia).
    assert (factZ 20 = 2432902008176640000)%Z as E20 by (do 20 rewrite factZ_S; reflexivity). lia. }
  destruct (pz_div B _ _ _ _ s (factZ j) cj rho x L' Pz Ns Fj E3) as (t3 & G3 & V3).
  exists cj. eexists. split; [exact E4|]. split; [exact V3|].
  assert (nonneg (upd rho x av)) as P'. { intros y. unfold upd. destruct (String.eqb y x); [exact (nice_nonneg _ _ _ _ Na)|apply P]. }
  destruct (C1 _ P' O) as (t1 & G1 & V1). destruct (C2 rho x P O) as (t2 & G2 & V2). rewrite Nat.add_0_r in V1.
  assert (jet rho x (subst x (e_num a) dj) O = jet (upd rho x av) x dj O) as V0.
  { assert (Some (jet rho x (subst x (e_num a) dj) O) = Some (jet (upd rho x av) x dj O)) as K; [|congruence].
    rewrite <- (jet_eval B _ _ _ _ _ rho x Ps), <- (jet_eval B _ _ _ _ _ (upd rho x av) x Pd). apply eval_subst. exact Ea. }
  rewrite (jet_Derive_n B d l c h e rho x H j av).
  exists (t1 * t2 * t3). split.
  - rewrite V2, V0, V1. unfold factZ. rewrite <- INR_IZR_INZ. field. apply INR_fact_neq_0.
  - assert (k + (c + j * h) + 3 <= (j + 1) * (c + j * h) + 3)%nat as K by nia.
    exact (good_le _ _ _ K (good_mul _ 3 _ _ (good_mul k (c + j * h) _ _ G1 G2) G3)).
Qed.
Print Assumptions c92_taylor.

(** what [rounded] means in plain terms *)
Theorem c92_relative k v v' : (Z.of_nat k <= 2 ^ 40)%Z -> rounded k v v' -> Rabs (v' - v) <= 2 * INR k * ulp_half * Rabs v.
Proof.
  intros K (t & -> & G). pose proof u_small as U. pose proof (pow_q_bounds k K) as Q.
  assert (1 - INR k * u <= (1 - u) ^ k) as L.
  { clear -U. induction k as [|k IH]; [cbn; lra|]. rewrite S_INR. cbn [pow]. pose proof (pos_INR k). nra. }
  pose proof (pos_INR k) as Pk. destruct G as [G1 G2]. change ulp_half with u in *. set (q := (1 - u) ^ k) in *. set (d := INR k * u) in *.
  assert (0 <= d) by (unfold d; nra). replace (2 * INR k * u) with (2 * d) by (unfold d; ring).
  assert (/ q <= 1 + 2 * d).
  { apply Rmult_le_reg_r with q; [lra|]. rewrite Rinv_l by lra. nra. }
  replace (v * t - v) with (v * (t - 1)) by ring. rewrite Rabs_mult, Rmult_comm.
  apply Rmult_le_compat_r; [apply Rabs_pos|]. apply Rabs_le. lra.
Qed.
Print Assumptions c92_relative.

(** a case: 2.5*x*x + (0.5*y + pi), expanded at 3 to order 2, in a debug build *)
Definition ex_fpoly : expr :=
  e_add (e_mul (e_mul (e_num (sn_of_f64 f_2_5)) (e_var "x")) (e_var "x"))
        (e_add (e_mul (e_num (sn_of_f64 f_half)) (e_var "y")) (e_num sn_pi)).
Example c92_witness : fpoly 2 ex_fpoly 3 2 9 6 /\ plain_num 2 (sn_of_i64 3) /\
  (exists z, num_aggregate Debug ex_fpoly = Ok z) /\ (exists z, deriv_n Debug "x" 2 ex_fpoly = Ok z) /\
  exists t, taylor_expansion Debug ex_fpoly (e_var "x") (e_of_i64 3) 2 = Ok (ROk t).
Proof.
  destruct f_2_5_ok as [I2 V2]. destruct f_half_ok as [Ih Vh]. split.
  - assert (fpoly 2 (e_num (sn_of_f64 f_2_5)) 1 0 0 0) as P1 by (apply fp_num, pn_f64; [exact I2|exact I|rewrite V2; lra]).
    assert (fpoly 2 (e_num (sn_of_f64 f_half)) 1 0 0 0) as P2 by (apply fp_num, pn_f64; [exact Ih|exact I|rewrite Vh; lra]).
    exact (fp_add 2 _ _ _ _ _ _ _ _ _ _ (fp_mul 2 _ _ _ _ _ _ _ _ _ _ (fp_mul 2 _ _ _ _ _ _ _ _ _ _ P1 (fp_var 2 "x")) (fp_var 2 "x"))
      (fp_add 2 _ _ _ _ _ _ _ _ _ _ (fp_mul 2 _ _ _ _ _ _ _ _ _ _ P2 (fp_var 2 "y")) (fp_num 2 _ (pn_pi 2)))).
  - split; [apply pn_int; [cbn; lia|reflexivity]|]. repeat split; eexists; vm_compute; reflexivity.
Qed.
