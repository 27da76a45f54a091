(** * PropsWrap: what release builds compute when fractions overflow (C86) *)
From Coq Require Import ZArith QArith List String Bool Lia.
From Verif Require Import Base Float Rational SmartNum Spec SpecWrap.
From Verif Require Import BaseProofs RationalProofs NumProofs NumProofs2 ModProofs PropsNum PropsSmall.
Open Scope Z_scope.

Definition as_rat (v : val) : rat :=
  match v with
  | Integer i => mkRat (if i =? 0 then 1 else Z.sgn i) (Z.abs i) 1
  | Rational r => r
  | Real _ => mkRat 0 0 0
  end.
Lemma rat_of_rel i : in_i64 i = true -> rat_of_i64 Release i = Ok (as_rat (Integer i)).
Proof.
  intros H. apply in_i64_iff in H. unfold rat_of_i64, i64_abs, as_rat, i64_signum, ovf_i64, cast_u64.
  destruct (in_i64 (Z.abs i)) eqn:A.
  - cbn [bind]. assert (in_u64 (Z.abs i) = true) as ->. { apply in_i64_iff in A. apply in_u64_iff. unfold two63, two64 in *. lia. } reflexivity.
  - assert (i = - two63) as ->. { destruct (Z.eq_dec i (- two63)); [assumption|]. exfalso. apply Bool.not_true_iff_false in A. apply A. apply in_i64_iff. unfold two63 in *. lia. }
    reflexivity.
Qed.

Lemma two_64 : two64 = 2 ^ 64. Proof. reflexivity. Qed.
Lemma two_63 : two63 = 2 ^ 63. Proof. reflexivity. Qed.
Lemma wrap_i64_of z : i64_of z (wrap_i64 z).
Proof.
  split; [rewrite <- two_63; apply wrap_i64_range|]. destruct (wrap_cong z) as (k & E). exists k. rewrite E, two_64. ring.
Qed.
Lemma wrap_u64_of z : u64_of z (wrap_u64 z).
Proof.
  unfold wrap_u64. split; [rewrite <- two_64; apply Z.mod_pos_bound; reflexivity|].
  exists (- (z / two64)). rewrite (Z.mod_eq z two64) by discriminate. rewrite two_64. ring.
Qed.
Lemma ovf_u64_rel z : ovf_u64 Release z = Ok (wrap_u64 z).
Proof.
  unfold ovf_u64. destruct (in_u64 z) eqn:E; [|reflexivity]. apply in_u64_iff in E. unfold wrap_u64. rewrite Z.mod_small by lia. reflexivity.
Qed.
Lemma cast_i64_rel z : cast_i64 Release z = Ok (wrap_i64 z).
Proof. unfold cast_i64. pose proof (ovf_release z) as H. unfold ovf_i64 in H. destruct (in_i64 z); [exact H|reflexivity]. Qed.

Definition RN (r : rat) : Z := rsign r * rnum r.
Lemma cross_rel n d s : exists a, rat_cross Release n d s = Ok a /\ exists k, a = s * (n * d) + k * 2 ^ 64.
Proof.
  unfold rat_cross, u64_mul, i64_mul. rewrite ovf_u64_rel. cbn [bind]. rewrite cast_i64_rel. cbn [bind]. rewrite ovf_release. eexists. split; [reflexivity|].
  destruct (wrap_i64_of (wrap_i64 (wrap_u64 (n * d)) * s)) as (_ & k1 & ->).
  destruct (wrap_i64_of (wrap_u64 (n * d))) as (_ & k2 & ->).
  destruct (wrap_u64_of (n * d)) as (_ & k3 & ->). exists (k1 + s * k2 + s * k3). ring.
Qed.

Definition lowform (z : rat) (S D : Z) : Prop :=
  (exists g, 0 < g /\ S = g * RN z /\ D = g * rden z) /\ (Z.gcd (rnum z) (rden z) = 1 \/ (rnum z = 0 /\ rden z = 0)) /\ 0 <= rnum z /\ 0 <= rden z.
Lemma reduce_low x : rat_typed x -> lowform (rat_reduce x) (RN x) (rden x) /\ rsign (rat_reduce x) = rsign x.
Proof.
  intros T. destruct (c01_reduce_any x T) as ((_ & T1 & T2) & Sg & (g & P & N & D) & A & B & C). split; [|exact Sg]. split; [|split].
  - exists g. split; [exact P|]. unfold RN. rewrite Sg. split; [rewrite N at 1; ring|exact D].
  - destruct (Z.eq_dec (rnum x) 0) as [E|E]; [destruct (Z.eq_dec (rden x) 0) as [F|F]|].
    + right. split; tauto.
    + left. apply c01_reduce_lowest; auto.
    + left. apply c01_reduce_lowest; auto.
  - apply in_u64_iff in T1, T2. lia.
Qed.
Lemma sgn_abs s : Z.sgn s * Z.abs s = s. Proof. lia. Qed.

Lemma finish_rel s d1 d2 : - two63 <= s < two63 -> exists z U, rat_finish Release s d1 d2 = Ok z /\ u64_of (d1 * d2) U /\ lowform z s U /\ (rsign z = Z.sgn s).
Proof.
  intros R. unfold rat_finish, u64_mul, i64_signum.
  assert (exists a, i64_abs Release s = Ok a /\ cast_u64 Release a = Ok (Z.abs s)) as (a & -> & E).
  { unfold i64_abs, ovf_i64, cast_u64. destruct (in_i64 (Z.abs s)) eqn:A.
    - eexists. split; [reflexivity|]. apply in_i64_iff in A. assert (in_u64 (Z.abs s) = true) as ->; [|reflexivity]. apply in_u64_iff. unfold two63, two64 in *. lia.
    - assert (s = - two63) as ->. { destruct (Z.eq_dec s (- two63)); [assumption|]. exfalso. apply Bool.not_true_iff_false in A. apply A. apply in_i64_iff. unfold two63 in *. lia. }
      eexists. split; reflexivity. }
  cbn [bind]. rewrite E. cbn [bind]. rewrite ovf_u64_rel. cbn [bind]. do 2 eexists. split; [reflexivity|]. split; [apply wrap_u64_of|].
  assert (rat_typed (mkRat (Z.sgn s) (Z.abs s) (wrap_u64 (d1 * d2)))) as T.
  { repeat split; cbn [rsign rnum rden]; [apply in_i64_iff; unfold two63 in *; lia|apply in_u64_iff; unfold two63, two64 in *; lia|].
    apply in_u64_iff. unfold wrap_u64. pose proof (Z.mod_pos_bound (d1 * d2) two64 eq_refl). lia. }
  destruct (reduce_low _ T) as (L & Sg). unfold RN in L. cbn [rsign rnum rden] in L, Sg. rewrite sgn_abs in L. split; assumption.
Qed.

Lemma rat_add_rel x y : exists z S U, rat_add Release x y = Ok z /\
  i64_of (RN x * rden y + RN y * rden x) S /\ u64_of (rden x * rden y) U /\ lowform z S U /\ rsign z = Z.sgn S.
Proof.
  unfold rat_add. destruct (cross_rel (rnum x) (rden y) (rsign x)) as (a & -> & k1 & A). destruct (cross_rel (rden x) (rnum y) (rsign y)) as (b & -> & k2 & B).
  cbn [bind]. unfold i64_add. rewrite ovf_release. cbn [bind].
  destruct (finish_rel (wrap_i64 (a + b)) (rden x) (rden y) (wrap_i64_range _)) as (z & U & -> & HU & L & Sg).
  exists z, (wrap_i64 (a + b)), U. split; [reflexivity|]. split; [|auto].
  destruct (wrap_i64_of (a + b)) as (R & k & E). split; [exact R|]. exists (k + k1 + k2). rewrite E, A, B. unfold RN. ring.
Qed.
Lemma rat_sub_rel x y : exists z S U, rat_sub Release x y = Ok z /\
  i64_of (RN x * rden y - RN y * rden x) S /\ u64_of (rden x * rden y) U /\ lowform z S U /\ rsign z = Z.sgn S.
Proof.
  unfold rat_sub. destruct (cross_rel (rnum x) (rden y) (rsign x)) as (a & -> & k1 & A). destruct (cross_rel (rden x) (rnum y) (rsign y)) as (b & -> & k2 & B).
  cbn [bind]. unfold i64_sub. rewrite ovf_release. cbn [bind].
  destruct (finish_rel (wrap_i64 (a - b)) (rden x) (rden y) (wrap_i64_range _)) as (z & U & -> & HU & L & Sg).
  exists z, (wrap_i64 (a - b)), U. split; [reflexivity|]. split; [|auto].
  destruct (wrap_i64_of (a - b)) as (R & k & E). split; [exact R|]. exists (k + k1 - k2). rewrite E, A, B. unfold RN. ring.
Qed.
Definition sg3 (s : Z) : Prop := s = 1 \/ s = -1 \/ s = 0.
Lemma sg3_mul s t : sg3 s -> sg3 t -> sg3 (s * t).
Proof. unfold sg3. intuition subst; auto. Qed.
Lemma mk_rel s t n d : sg3 s -> sg3 t -> exists z U V, (let* s := i64_mul Release s t in let* n := ovf_u64 Release n in let* d := ovf_u64 Release d in Ok (rat_reduce (mkRat s n d))) = Ok z /\
  u64_of n U /\ u64_of d V /\ lowform z (s * t * U) V /\ rsign z = s * t.
Proof.
  intros A B. pose proof (sg3_mul _ _ A B) as C. unfold i64_mul. rewrite ovf_release. cbn [bind]. rewrite !ovf_u64_rel. cbn [bind].
  assert (wrap_i64 (s * t) = s * t) as -> by (destruct C as [-> | [-> | ->]]; reflexivity).
  do 3 eexists. split; [reflexivity|]. split; [apply wrap_u64_of|]. split; [apply wrap_u64_of|].
  assert (rat_typed (mkRat (s * t) (wrap_u64 n) (wrap_u64 d))) as T.
  { unfold wrap_u64. repeat split; cbn [rsign rnum rden]; [destruct C as [-> | [-> | ->]]; reflexivity| |]; apply in_u64_iff; apply Z.mod_pos_bound; reflexivity. }
  destruct (reduce_low _ T) as (L & Sg). unfold RN in L. cbn [rsign rnum rden] in L, Sg. split; assumption.
Qed.

(** numbers *)
Lemma inv_sg3 v : val_inv v -> sg3 (rsign (as_rat v)).
Proof.
  destruct v as [i|r|f]; cbn [val_inv as_rat rsign].
  - intros _. destruct (i =? 0) eqn:E; unfold sg3; lia.
  - intros (([H|[H|(H & _)]] & _) & _); unfold sg3; auto.
  - intros _. unfold sg3. auto.
Qed.
Lemma as_rat_num x : exact_num x -> sn_is_zero x = false -> num_ok x ->
  RN (as_rat (nval x)) = signed_num x /\ rden (as_rat (nval x)) = den_of x /\ rnum (as_rat (nval x)) = num_of x /\ rsign (as_rat (nval x)) = sn_sign x.
Proof.
  intros E Z K. unfold signed_num, sn_sign, num_of, den_of, RN, as_rat, i64_signum. destruct x as [[i|r|f] t]; cbn [nval] in *; [|auto|exfalso; exact (E f eq_refl)].
  cbn [rsign rnum rden]. assert (i <> 0) as N.
  { intros ->. destruct K as (_ & K). cbn [ntag nval] in K. unfold sn_is_zero in Z. cbn [ntag] in Z. destruct t; try discriminate; destruct K; discriminate. }
  destruct (Z.eqb_spec i 0); [contradiction|]. auto.
Qed.
Lemma low_wrap z S D : lowform z S D -> lowest_form (wrap_val (Rational z)) S D.
Proof.
  intros ((g & P & A & B) & G & Np & Dp). unfold wrap_val. unfold RN in A.
  destruct (val_is_zero (Rational z)) eqn:E0; [|destruct (val_is_one (Rational z)) eqn:E1]; cbn [val_is_zero val_is_one] in *.
  - apply andb_true_iff in E0 as (N & Dz). apply Z.eqb_eq in N. apply negb_true_iff, Z.eqb_neq in Dz.
    destruct G as [G|(_ & G)]; [|contradiction]. rewrite N in *. rewrite Z.gcd_0_l in G. assert (rden z = 1) as D1 by lia.
    split; [|left; reflexivity]. exists g. split; [exact P|]. change (signed_num sn_zero) with 0. change (den_of sn_zero) with 1. lia.
  - apply andb_true_iff in E1 as (E1 & Dz). apply andb_true_iff in E1 as (Sg & N). apply Z.eqb_eq in N, Sg. apply negb_true_iff, Z.eqb_neq in Dz.
    destruct G as [G|(_ & G)]; [|contradiction]. rewrite N, Z.gcd_diag in G. assert (rden z = 1) as D1 by lia.
    split; [|left; reflexivity]. exists g. split; [exact P|]. change (signed_num sn_one) with 1. change (den_of sn_one) with 1.
    rewrite Sg, N, D1 in A. lia.
  - split; [exists g; auto|exact G].
Qed.


(** the operations through fractions, if one operand is a fraction *)
Definition via (f : mode -> rat -> rat -> res rat) (a b : val) : res val := let* r := f Release (as_rat a) (as_rat b) in Ok (Rational r).
Lemma tag_zero x : num_ok x -> sn_is_zero x = val_is_zero (nval x).
Proof. exact (is_zero_val x). Qed.
Lemma via_ops x y : num_ok x -> num_ok y -> exact_num x -> exact_num y -> is_fraction x \/ is_fraction y ->
  val_add Release (nval x) (nval y) = via rat_add (nval x) (nval y) /\
  val_sub Release (nval x) (nval y) = via rat_sub (nval x) (nval y) /\
  (sn_is_zero x = false -> sn_is_zero y = false -> val_mul Release (nval x) (nval y) = via rat_mul (nval x) (nval y)).
Proof.
  intros Kx Ky Ex Ey F. rewrite !tag_zero by assumption. unfold via.
  destruct x as [vx tx], y as [vy ty], Kx as (Ix & _), Ky as (Iy & _). cbn [nval] in *.
  destruct vx as [i|r|f]; [| |exfalso; exact (Ex f eq_refl)]; (destruct vy as [j|q|g]; [| |exfalso; exact (Ey g eq_refl)]);
    cbn [val_add val_sub as_rat].
  - exfalso. destruct F as [(r & F)|(r & F)]; discriminate.
  - rewrite rat_of_rel by exact Ix. cbn [bind as_rat]. split; [reflexivity|]. split; [reflexivity|]. unfold val_mul. intros -> ->. rewrite rat_of_rel by exact Ix. reflexivity.
  - rewrite rat_of_rel by exact Iy. cbn [bind as_rat]. split; [reflexivity|]. split; [reflexivity|]. unfold val_mul. intros -> ->. rewrite rat_of_rel by exact Iy. reflexivity.
  - split; [reflexivity|]. split; [reflexivity|]. unfold val_mul. intros -> ->. reflexivity.
Qed.
Lemma via_div x y : num_ok x -> num_ok y -> exact_num x -> exact_num y -> sn_is_zero x = false ->
  val_div Release (nval x) (nval y) = via rat_div (nval x) (nval y).
Proof.
  intros Kx Ky Ex Ey. rewrite !tag_zero by assumption. unfold via.
  destruct x as [vx tx], y as [vy ty], Kx as (Ix & _), Ky as (Iy & _). cbn [nval] in *. unfold val_div. intros ->.
  destruct vx as [i|r|f]; [| |exfalso; exact (Ex f eq_refl)]; (destruct vy as [j|q|g]; [| |exfalso; exact (Ey g eq_refl)]);
  rewrite ?rat_of_rel by assumption; reflexivity.
Qed.
Lemma guard_rel b r : guard Release b r = r. Proof. reflexivity. Qed.

(** ** C86 *)
(** x + y and x - y of numbers one of which is a fraction, neither zero *)
Theorem c86_add x y : api_number Release x -> api_number Release y -> exact_num x -> exact_num y -> is_fraction x \/ is_fraction y ->
  sn_is_zero x = false -> sn_is_zero y = false ->
  exists z S D, sn_add Release x y = Ok z /\ i64_of (signed_num x * den_of y + signed_num y * den_of x) S /\
    u64_of (den_of x * den_of y) D /\ lowest_form z S D.
Proof.
  intros Ax Ay Ex Ey F Zx Zy. apply api_number_ok in Ax, Ay. unfold sn_add. rewrite Zx, Zy, guard_rel.
  destruct (via_ops x y Ax Ay Ex Ey F) as (-> & _ & _). unfold via.
  destruct (as_rat_num x Ex Zx Ax) as (N1 & D1 & _), (as_rat_num y Ey Zy Ay) as (N2 & D2 & _).
  destruct (rat_add_rel (as_rat (nval x)) (as_rat (nval y))) as (z & S & U & -> & HS & HU & L & _). cbn [bind].
  rewrite N1, N2, D1, D2 in HS. rewrite D1, D2 in HU. exists (wrap_val (Rational z)), S, U. split; [reflexivity|]. auto using low_wrap.
Qed.
Print Assumptions c86_add.
Theorem c86_sub x y : api_number Release x -> api_number Release y -> exact_num x -> exact_num y -> is_fraction x \/ is_fraction y ->
  sn_is_zero x = false -> sn_is_zero y = false ->
  exists z S D, sn_sub Release x y = Ok z /\ i64_of (signed_num x * den_of y - signed_num y * den_of x) S /\
    u64_of (den_of x * den_of y) D /\ lowest_form z S D.
Proof.
  intros Ax Ay Ex Ey F Zx Zy. apply api_number_ok in Ax, Ay. unfold sn_sub. rewrite Zx, Zy, guard_rel.
  destruct (via_ops x y Ax Ay Ex Ey F) as (_ & -> & _). unfold via.
  destruct (as_rat_num x Ex Zx Ax) as (N1 & D1 & _), (as_rat_num y Ey Zy Ay) as (N2 & D2 & _).
  destruct (rat_sub_rel (as_rat (nval x)) (as_rat (nval y))) as (z & S & U & -> & HS & HU & L & _). cbn [bind].
  rewrite N1, N2, D1, D2 in HS. rewrite D1, D2 in HU. exists (wrap_val (Rational z)), S, U. split; [reflexivity|]. auto using low_wrap.
Qed.
Print Assumptions c86_sub.
(** x * y of numbers one of which is a fraction, neither zero nor one *)
Theorem c86_mul x y : api_number Release x -> api_number Release y -> exact_num x -> exact_num y -> is_fraction x \/ is_fraction y ->
  sn_is_zero x = false -> sn_is_zero y = false -> sn_is_one x = false -> sn_is_one y = false ->
  exists z N D, sn_mul Release x y = Ok z /\ u64_of (num_of x * num_of y) N /\ u64_of (den_of x * den_of y) D /\
    lowest_form z (sn_sign x * sn_sign y * N) D.
Proof.
  intros Ax Ay Ex Ey F Zx Zy Ox Oy. apply api_number_ok in Ax, Ay. unfold sn_mul. rewrite Ox, Oy, guard_rel.
  destruct (via_ops x y Ax Ay Ex Ey F) as (_ & _ & ->); try assumption. unfold via, rat_mul, u64_mul.
  destruct (as_rat_num x Ex Zx Ax) as (_ & D1 & N1 & S1), (as_rat_num y Ey Zy Ay) as (_ & D2 & N2 & S2).
  destruct (mk_rel _ _ (num_of x * num_of y) (den_of x * den_of y) (inv_sg3 _ (proj1 Ax)) (inv_sg3 _ (proj1 Ay))) as (z & U & V & E & HU & HV & L & _).
  rewrite D1, D2, N1, N2, E. cbn [bind]. rewrite S1, S2 in L. exists (wrap_val (Rational z)), U, V. split; [reflexivity|]. auto using low_wrap.
Qed.
Print Assumptions c86_mul.
(** x / y, neither zero *)
Theorem c86_div x y : api_number Release x -> api_number Release y -> exact_num x -> exact_num y ->
  sn_is_zero x = false -> sn_is_zero y = false ->
  exists z N D, sn_div Release x y = Ok z /\ u64_of (num_of x * den_of y) N /\ u64_of (den_of x * num_of y) D /\
    lowest_form z (sn_sign x * sn_sign y * N) D.
Proof.
  intros Ax Ay Ex Ey Zx Zy. apply api_number_ok in Ax, Ay. unfold sn_div. rewrite guard_rel.
  rewrite (via_div x y Ax Ay Ex Ey Zx). unfold via, rat_div, u64_mul.
  destruct (as_rat_num x Ex Zx Ax) as (_ & D1 & N1 & S1), (as_rat_num y Ey Zy Ay) as (_ & D2 & N2 & S2).
  destruct (mk_rel _ _ (num_of x * den_of y) (den_of x * num_of y) (inv_sg3 _ (proj1 Ax)) (inv_sg3 _ (proj1 Ay))) as (z & U & V & E & HU & HV & L & _).
  rewrite D1, D2, N1, N2, E. cbn [bind]. rewrite S1, S2 in L. exists (wrap_val (Rational z)), U, V. split; [reflexivity|]. auto using low_wrap.
Qed.
Print Assumptions c86_div.
(** -x *)
Theorem c86_neg x : api_number Release x -> is_fraction x -> sn_is_zero x = false ->
  exists z, sn_neg Release x = Ok z /\ signed_num z * den_of x = - signed_num x * den_of z /\
    (is_fraction z -> num_of z = num_of x /\ den_of z = den_of x /\ sn_sign z = - sn_sign x).
Proof.
  intros Ax F Zx. pose proof (api_number_ok _ _ Ax) as K. destruct x as [v t]. destruct F as (r & F). cbn [nval] in F. subst v.
  unfold sn_neg. rewrite guard_rel. cbn [nval val_neg]. destruct K as (((Sg & Rn & Rd) & Z0) & _). cbn [nval] in *.
  unfold rat_neg, i64_neg. rewrite ovf_release. cbn [bind].
  assert (wrap_i64 (- rsign r) = - rsign r) as -> by (destruct Sg as [-> | [-> | (-> & _)]]; reflexivity).
  assert (val_is_zero (Rational r) = false) as V0.
  { pose proof (tag_zero _ (api_number_ok _ _ Ax)) as T. rewrite Zx in T. cbn [nval] in T. congruence. }
  eexists. split; [reflexivity|]. unfold wrap_val.
  cbn [val_is_zero] in *. cbn [rnum rden] in *. rewrite V0.
  destruct (val_is_one (Rational (mkRat (- rsign r) (rnum r) (rden r)))) eqn:O.
  - cbn [val_is_one rsign rnum rden] in O. apply andb_true_iff in O as (O & _). apply andb_true_iff in O as (O & N).
    apply Z.eqb_eq in O, N. split; [|intros (q & Q); discriminate].
    unfold signed_num, sn_sign, num_of, den_of. cbn [nval sn_one rsign rnum rden]. replace (rsign r) with (-1) by lia. rewrite N. unfold i64_signum. cbn [Z.sgn Z.abs]. ring.
  - unfold signed_num, sn_sign, num_of, den_of. cbn [nval rsign rnum rden]. split; [ring|auto].
Qed.
Print Assumptions c86_neg.

(** Witness: (2^63+1)/3 and 2^33/5 overflow both products; the debug build panics, the release
    build returns ((2^63+1)*2^33 mod 2^64)/15. *)
Example c86_witness : exists x y z,
  sn_new_rational Release 1 (2 ^ 63 + 1) 3 = Ok (Some x) /\ sn_new_rational Release (-1) (2 ^ 33) 5 = Ok (Some y) /\
  is_fraction x /\ sn_is_zero x = false /\ sn_is_zero y = false /\ sn_is_one x = false /\ sn_is_one y = false /\
  sn_mul Debug x y = Panic /\ sn_mul Release x y = Ok z /\ sn_sign z = -1 /\ num_of z = 2 ^ 33 /\ den_of z = 15 /\
  lowest_form z (-1 * 2 ^ 33) 15 /\ u64_of (num_of x * num_of y) (2 ^ 33).
Proof.
  do 3 eexists. repeat match goal with |- _ /\ _ => split; [vm_compute; try reflexivity; eexists; reflexivity|] end.
  split.
  - split; [exists 1; vm_compute; auto|left; vm_compute; reflexivity].
  - split; [vm_compute; intuition discriminate|]. exists (- 2 ^ 32). vm_compute. reflexivity.
Qed.
