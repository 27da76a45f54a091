(** * PropsLHSin: limits of quotients with sines and cosines at 0 (C85) *)
From Coq Require Import ZArith QArith Qreals List String Bool Lia Lra.
From Coq Require Import Reals.
From Coquelicot Require Import Coquelicot.
From Verif Require Import Base Float Rational SmartNum Ast Compute Limit Spec SpecTree SpecR SpecLim SpecExact SpecLH SpecLHSin.
From Verif Require Import BaseProofs NumProofs TreeProofs RealProofs LimProofs PropsNum PropsLim PropsLH.
Import ListNotations.
Open Scope Z_scope.

Definition flag (cosines : bool) : nat := if cosines then 2 else 1.

(** the value at 0 *)
Lemma low_at0 {fl} x e k c : @low fl x e k c -> forall rho, eval (upd rho x 0%R) e = Some (if (k =? 0)%nat then IZR c else 0%R).
Proof.
  induction 1 as [|v P I|p q i a j b Lp IHp Lq IHq|p q i a j b Lp IHp Lq IHq|p i a F Lp IHp|p i a F Lp IHp]; intros rho.
  - unfold e_var. rewrite eval_var, upd_same. reflexivity.
  - unfold e_of_i64, e_num. rewrite eval_num. apply num_R_int.
  - unfold e_add. rewrite eval_mk2, IHp, IHq. cbn [obind ev2]. unfold combine.
    destruct i as [|i], j as [|j]; cbn [Nat.eqb Nat.min Nat.ltb Nat.leb]; apply f_equal; rewrite ?plus_IZR; ring.
  - unfold e_mul. rewrite eval_mk2, IHp, IHq. cbn [obind ev2].
    destruct i as [|i], j as [|j]; cbn [Nat.eqb Nat.add]; apply f_equal; rewrite ?mult_IZR; ring.
  - unfold e_sin. rewrite eval_mk1, IHp. cbn [obind ev1 Nat.eqb]. rewrite sin_0. reflexivity.
  - unfold e_cos. rewrite eval_mk1, IHp. cbn [obind ev1 Nat.eqb]. rewrite cos_0. reflexivity.
Qed.
Lemma low_vanishes {fl} x e k c : @low fl x e k c -> vanishes x e -> exists i, k = S i.
Proof.
  intros L V. destruct k as [|i]; [exfalso|exists i; reflexivity]. pose proof (low_at0 x e 0 c L (fun _ => 0%R)) as E. rewrite V in E.
  injection E as E. pose proof (low_pos _ _ _ _ L) as P. apply IZR_lt in P. lra.
Qed.
Lemma trig_low x w p : pos_trig x w p -> exists k c, @low (flag w) x p k c.
Proof.
  induction 1 as [|z P I|a b _ (i & c & A) _ (j & d & B)|a b _ (i & c & A) _ (j & d & B)|a _ (i & c & A) V|a W _ (i & c & A) V].
  - do 2 eexists. apply low_var.
  - do 2 eexists. apply low_lit; assumption.
  - do 2 eexists. apply low_add; eassumption.
  - do 2 eexists. apply low_mul; eassumption.
  - destruct (low_vanishes _ _ _ _ A V) as (k & ->). do 2 eexists. apply low_sin; [destruct w; cbn; lia|exact A].
  - destruct (low_vanishes _ _ _ _ A V) as (k & ->). do 2 eexists. apply (@low_cos (flag w) x a k c); [rewrite W; cbn; lia|exact A].
Qed.

Lemma zero_api z : api_number Debug z -> sn_is_zero z = true -> zero_num (e_num z).
Proof. intros A Z. exists z. auto. Qed.
Lemma flag_case w m : m = 0%nat \/ (w = false /\ (m <= 1)%nat) -> flag w = 0%nat \/ (flag w = 1%nat /\ (m <= 1)%nat) \/ m = 0%nat.
Proof. intros [H|(-> & H)]; [right; right; exact H|right; left; split; [reflexivity|exact H]]. Qed.

Open Scope R_scope.
(** ** C85 *)
(** every such expression behaves like c*x^k near 0, with c > 0 *)
Theorem c85_lowest_exists x w p : pos_trig x w p -> exists k c, lowest x p k c.
Proof. intros H. destruct (trig_low x w p H) as (k & c & L). exists k, (IZR c). exact (low_lowest x p k c L). Qed.
Print Assumptions c85_lowest_exists.

(** The answer for p/q at 0, with p ~ c*x^i and q ~ d*x^j, if the quotient of p and q is not 0/0
    (then cosines may occur), or no cosine occurs and one derivative resolves it: an error if
    order_try is too small; otherwise 0 if i > j, infinity if i < j, the number c/d if i = j. *)
Theorem c85_complete x w p q i c j d z ord fuel y : pos_trig x w p -> pos_trig x w q ->
  lowest x p i c -> lowest x q j d ->
  Nat.min i j = 0%nat \/ (w = false /\ (Nat.min i j <= 1)%nat) ->
  api_number Debug z -> sn_is_zero z = true -> (0 <= ord)%Z ->
  limit fuel Debug (e_div p q) (e_var x) (e_num z) ord = Ok y ->
  ((ord < Z.of_nat (Nat.min i j))%Z -> y = RErr NoValidLimitFound) /\
  ((Z.of_nat (Nat.min i j) <= ord)%Z ->
     ((j < i)%nat -> y = ROk Infinitesimal) /\
     ((i < j)%nat -> y = ROk Infinity) /\
     (i = j -> exists n r, y = ROk (Normal (e_num n)) /\ api_number Debug n /\ exact_Q n = Some r /\ Q2R r = c / d)).
Proof.
  intros Pp Pq Hc Hd M A Z O H.
  destruct (trig_low x w p Pp) as (i' & a & Lp), (trig_low x w q Pq) as (j' & b & Lq).
  destruct (lowest_unique _ _ _ _ _ _ Hc (low_lowest _ _ _ _ Lp)) as (<- & ->).
  destruct (lowest_unique _ _ _ _ _ _ Hd (low_lowest _ _ _ _ Lq)) as (<- & ->).
  exact (lh_core (flag w) x p q i a j b (e_num z) ord fuel y Lp Lq (fun _ => zero_api z A Z) (flag_case w _ M) Z O H).
Qed.
Print Assumptions c85_complete.

(** the answers are the limits *)
Theorem c85_right x w p q i c j d z ord fuel l rho : pos_trig x w p -> pos_trig x w q ->
  lowest x p i c -> lowest x q j d ->
  Nat.min i j = 0%nat \/ (w = false /\ (Nat.min i j <= 1)%nat) ->
  api_number Debug z -> sn_is_zero z = true -> (0 <= ord)%Z ->
  limit fuel Debug (e_div p q) (e_var x) (e_num z) ord = Ok (ROk l) ->
  describes (near 0) rho (evalx rho x (e_div p q)) l.
Proof.
  intros Pp Pq Hc Hd M A Z O H.
  destruct (trig_low x w p Pp) as (i' & a & Lp), (trig_low x w q Pq) as (j' & b & Lq).
  destruct (lowest_unique _ _ _ _ _ _ Hc (low_lowest _ _ _ _ Lp)) as (<- & ->).
  destruct (lowest_unique _ _ _ _ _ _ Hd (low_lowest _ _ _ _ Lq)) as (<- & ->).
  exact (lh_right (flag w) x p q i a j b (e_num z) ord fuel l rho Lp Lq (fun _ => zero_api z A Z) (flag_case w _ M) Z O H).
Qed.
Print Assumptions c85_right.

(** A second derivative contains a negation, of which limit panics: sin(x)*sin(x)/(x*x), which
    tends to 1, is an error for order_try 0 and 1 and panics from 2 on, in both builds. *)
Definition sin2 : expr := e_mul (e_sin (e_var "x")) (e_sin (e_var "x")).
Definition x2 : expr := e_mul (e_var "x") (e_var "x").
Theorem c85_second_order_panics m ord fuel : m = Debug \/ m = Release -> (2 <= ord)%Z -> (5 <= fuel)%nat ->
  limit fuel m (e_div sin2 x2) (e_var "x") e_zero ord = Panic.
Proof.
  intros M O F. do 5 (destruct fuel as [|fuel]; [lia|]). clear F.
  unfold limit. cbn [to_variable e_var root]. cbn [limit_var]. unfold limit_rule at 1. unfold e_div at 1. cbn [root mk2].
  rewrite descriptor_gen. unfold div_limit_expr_rule. cbn [child mk2 pop_unwrap pop bind rev app].
  replace (Z.to_nat (ord + 1)) with (S (S (S (Z.to_nat (ord - 2))))) by lia. generalize (Z.to_nat (ord - 2)). intros n. clear O.
  destruct M as [-> | ->]; reflexivity.
Qed.
Print Assumptions c85_second_order_panics.
Theorem c85_second_order_error m ord fuel : m = Debug \/ m = Release -> (0 <= ord < 2)%Z -> (5 <= fuel)%nat ->
  limit fuel m (e_div sin2 x2) (e_var "x") e_zero ord = Ok (RErr NoValidLimitFound).
Proof.
  intros M O F. do 5 (destruct fuel as [|fuel]; [lia|]). clear F. assert (ord = 0 \/ ord = 1)%Z as [-> | ->] by lia;
  destruct M as [-> | ->]; reflexivity.
Qed.
Print Assumptions c85_second_order_error.

(** Witness: the quotients of the repository's tests (src/compute/limit tests) and one with a cosine. *)
Definition sinx : expr := e_sin (e_var "x").
Definition sum3 : expr := e_add (e_mul (e_of_i64 3) sinx) (e_mul sinx (e_var "x")).
Definition cosq : expr := e_add (e_cos (e_mul (e_var "x") sinx)) (e_of_i64 2).
Example c85_witness : pos_trig "x" false sum3 /\ pos_trig "x" true cosq /\ lowest "x" sum3 1 3 /\ lowest "x" (e_var "x") 1 1 /\ lowest "x" cosq 0 3 /\
  limit 100 Debug (e_div sum3 (e_var "x")) (e_var "x") e_zero 0 = Ok (RErr NoValidLimitFound) /\
  (exists n, limit 100 Debug (e_div sum3 (e_var "x")) (e_var "x") e_zero 1 = Ok (ROk (Normal (e_num n))) /\ exact_Q n = Some (3 # 1)%Q) /\
  limit 100 Debug (e_div sinx x2) (e_var "x") e_zero 1 = Ok (ROk Infinity) /\
  limit 100 Debug (e_div sin2 (e_var "x")) (e_var "x") e_zero 1 = Ok (ROk Infinitesimal) /\
  (exists n, limit 100 Debug (e_div cosq (e_of_i64 6)) (e_var "x") e_zero 0 = Ok (ROk (Normal (e_num n))) /\ exact_Q n = Some (1 # 2)%Q) /\
  limit 100 Debug (e_div cosq (e_var "x")) (e_var "x") e_zero 0 = Ok (ROk Infinity).
Proof.
  assert (Vx : forall w, pos_trig "x" w (e_var "x")) by (intros; constructor).
  assert (V0 : vanishes "x" (e_var "x")) by (intros rho; unfold e_var; rewrite eval_var, upd_same; reflexivity).
  assert (Vs : forall w, pos_trig "x" w sinx) by (intros; apply pt_sin; [apply Vx|exact V0]).
  split; [|split; [|split; [|split; [|split; [|split; [|split; [|split; [|split; [|split]]]]]]]]].
  - unfold sum3. repeat constructor; auto.
  - unfold cosq. apply pt_add; [|constructor; reflexivity]. apply pt_cos; [reflexivity|apply pt_mul; auto|].
    intros rho. unfold e_mul, sinx, e_sin. rewrite eval_mk2, eval_mk1, V0. change (obind (Some 0) (fun a => obind (obind (Some 0) (ev1 OSin)) (ev2 OMul a)) = Some 0). cbn [obind ev1 ev2]. apply f_equal. ring.
  - change 1%nat with (Nat.min (0 + 1) (1 + 1)). change 3 with (IZR (combine (0 + 1) (3 * 1) (1 + 1) (1 * 1))).
    apply (@low_lowest 1). repeat constructor.
  - apply (@low_lowest 1 "x" (e_var "x") 1 1). constructor.
  - change 0%nat with (Nat.min 0 0). change 3 with (IZR (combine 0 1 0 2)).
    apply (@low_lowest 2). apply low_add; [|constructor; reflexivity]. apply (low_cos "x" _ 1 1); [lia|]. change (@low 2 "x" (e_mul (e_var "x") sinx) (1 + 1) (1 * 1)). apply low_mul; repeat constructor.
  - vm_compute. reflexivity.
  - eexists. split; vm_compute; reflexivity.
  - vm_compute. reflexivity.
  - vm_compute. reflexivity.
  - eexists. split; vm_compute; reflexivity.
  - vm_compute. reflexivity.
Qed.
