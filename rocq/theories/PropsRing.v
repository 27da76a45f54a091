(** * PropsRing: algebraic laws of numbers (C70) *)
From Coq Require Import ZArith QArith List String Bool Lia.
From Verif Require Import Base Float Rational SmartNum Ast Spec SpecExact.
From Verif Require Import BaseProofs RationalProofs NumProofs NumProofs2 IntProofs ModProofs ExactProofs.
Import ListNotations.
Open Scope Z_scope.
Open Scope res_scope.

(** ** C70 (a): i64 numbers in a release build are the ring of integers modulo 2^64: both sides
    of every ring law return, and return the same number *)

(** equal results, and there is a result *)
Definition same_result (r s : res snum) : Prop := exists z, r = Ok z /\ s = Ok z.

Ltac rel := repeat (first [rewrite sn_add_rel by auto using wrap_in_i64
  | rewrite sn_sub_rel by auto using wrap_in_i64 | rewrite sn_mul_rel by auto using wrap_in_i64
  | rewrite sn_neg_rel]; cbn [bind]).

Lemma wrap_eq p q k : p = q + two64 * k -> wrap_i64 p = wrap_i64 q.
Proof.
  intros H. destruct (wrap_cong p) as [i Hi]. apply (wrap_unique _ _ (i + k)); [apply wrap_in_i64|]. lia.
Qed.
Theorem c70_release_ring a b c : in_i64 a = true -> in_i64 b = true -> in_i64 c = true ->
  let x := sn_of_i64 a in let y := sn_of_i64 b in let z := sn_of_i64 c in
  same_result (let* s := sn_add Release x y in sn_add Release s z) (let* s := sn_add Release y z in sn_add Release x s) /\
  same_result (sn_add Release x y) (sn_add Release y x) /\
  same_result (sn_add Release x sn_zero) (Ok x) /\
  same_result (let* n := sn_neg Release x in sn_add Release x n) (Ok sn_zero) /\
  same_result (sn_sub Release x y) (let* n := sn_neg Release y in sn_add Release x n) /\
  same_result (let* s := sn_mul Release x y in sn_mul Release s z) (let* s := sn_mul Release y z in sn_mul Release x s) /\
  same_result (sn_mul Release x y) (sn_mul Release y x) /\
  same_result (sn_mul Release x sn_one) (Ok x) /\
  same_result (let* s := sn_add Release y z in sn_mul Release x s)
              (let* p := sn_mul Release x y in let* q := sn_mul Release x z in sn_add Release p q) /\
  same_result (let* n := sn_neg Release x in sn_mul Release n y) (let* p := sn_mul Release x y in sn_neg Release p).
Proof.
  intros Ha Hb Hc x y z. subst x y z. unfold same_result.
  assert (sn_zero = sn_of_i64 0) as -> by reflexivity. assert (sn_one = sn_of_i64 1) as -> by reflexivity.
  assert (in_i64 0 = true) as H0 by reflexivity. assert (in_i64 1 = true) as H1 by reflexivity. rel.
  assert (wrap_i64 a = a) as Wa by (symmetry; apply (wrap_unique a a 0); [exact Ha|lia]).
  assert (forall p q k, p = q + two64 * k -> exists z, Ok (sn_of_i64 (wrap_i64 p)) = Ok z /\ Ok (sn_of_i64 (wrap_i64 q)) = Ok z) as K.
  { intros p q k H. exists (sn_of_i64 (wrap_i64 q)). now rewrite (wrap_eq p q k H). }
  repeat match goal with |- _ /\ _ => split end.
  - destruct (wrap_cong (a + b)) as [i Hi], (wrap_cong (b + c)) as [j Hj]. apply (K _ _ (i - j)). lia.
  - apply (K _ _ 0). lia.
  - exists (sn_of_i64 a). rewrite Z.add_0_r, Wa. auto.
  - exists (sn_of_i64 0). split; [|reflexivity]. do 2 f_equal. destruct (wrap_cong (- a)) as [i Hi].
    symmetry. apply (wrap_unique _ _ (- i)); [reflexivity|lia].
  - destruct (wrap_cong (- b)) as [i Hi]. apply (K _ _ (- i)). lia.
  - destruct (wrap_cong (a * b)) as [i Hi], (wrap_cong (b * c)) as [j Hj]. apply (K _ _ (i * c - a * j)). nia.
  - apply (K _ _ 0). lia.
  - exists (sn_of_i64 a). rewrite Z.mul_1_r, Wa. auto.
  - destruct (wrap_cong (b + c)) as [i Hi], (wrap_cong (a * b)) as [j Hj], (wrap_cong (a * c)) as [l Hl].
    apply (K _ _ (a * i - j - l)). nia.
  - destruct (wrap_cong (- a)) as [i Hi], (wrap_cong (a * b)) as [j Hj]. apply (K _ _ (i * b + j)). nia.
Qed.
Print Assumptions c70_release_ring.

(** every integer the API can produce is one of these *)
Theorem c70_integers_are_i64 m x a : api_number m x -> sn_to_i64 x = Some a ->
  in_i64 a = true /\ x = sn_of_i64 a.
Proof.
  intros Hx H. apply api_number_ok in Hx as [V T]. unfold sn_to_i64 in H. destruct x as [v t]. cbn [nval ntag] in *.
  destruct v as [i|r|f]; try discriminate H. injection H as ->. split; [exact V|].
  unfold sn_of_i64, sn_of_val, val_of_i64. cbn [val_is_one val_is_zero]. f_equal. cbn [val_is_one val_is_zero] in T.
  destruct t; try discriminate T.
  - apply Z.eqb_eq in T as ->. reflexivity.
  - now rewrite T.
  - destruct T as [T0 T1]. now rewrite T0, T1.
Qed.
Print Assumptions c70_integers_are_i64.

(** in a debug build every sum, difference, product and negation that returns is exact, so both
    sides of every ring law are equal whenever both return *)
Definition equal_if_returned (r s : res snum) : Prop := forall u v, r = Ok u -> s = Ok v -> u = v.

Lemma dbg_add a b z : in_i64 a = true -> in_i64 b = true ->
  sn_add Debug (sn_of_i64 a) (sn_of_i64 b) = Ok z -> z = sn_of_i64 (a + b) /\ in_i64 (a + b) = true.
Proof.
  intros Ha Hb H. pose proof (sn_add_int Debug a b Ha Hb) as K. unfold int_outcome in K.
  destruct (in_i64 (a + b)); rewrite K in H; [injection H as <-; auto|discriminate H].
Qed.
Lemma dbg_sub a b z : in_i64 a = true -> in_i64 b = true ->
  sn_sub Debug (sn_of_i64 a) (sn_of_i64 b) = Ok z -> z = sn_of_i64 (a - b) /\ in_i64 (a - b) = true.
Proof.
  intros Ha Hb H. pose proof (sn_sub_int Debug a b Ha Hb) as K. unfold int_outcome in K.
  destruct (in_i64 (a - b)); rewrite K in H; [injection H as <-; auto|discriminate H].
Qed.
Lemma dbg_mul a b z : in_i64 a = true -> in_i64 b = true ->
  sn_mul Debug (sn_of_i64 a) (sn_of_i64 b) = Ok z -> z = sn_of_i64 (a * b) /\ in_i64 (a * b) = true.
Proof.
  intros Ha Hb H. pose proof (sn_mul_int Debug a b Ha Hb) as K. unfold int_outcome in K.
  destruct (in_i64 (a * b)); rewrite K in H; [injection H as <-; auto|discriminate H].
Qed.
Lemma dbg_neg a z : sn_neg Debug (sn_of_i64 a) = Ok z -> z = sn_of_i64 (- a) /\ in_i64 (- a) = true.
Proof.
  intros H. pose proof (sn_neg_int Debug a) as K. unfold int_outcome in K.
  destruct (in_i64 (- a)); rewrite K in H; [injection H as <-; auto|discriminate H].
Qed.
Ltac dbg H := first
  [ apply dbg_add in H; [destruct H as [-> ?]|solve [auto]..]
  | apply dbg_sub in H; [destruct H as [-> ?]|solve [auto]..]
  | apply dbg_mul in H; [destruct H as [-> ?]|solve [auto]..]
  | apply dbg_neg in H; destruct H as [-> ?] ].
Ltac step H := match type of H with
  | bind ?r _ = Ok _ => let E := fresh "E" in destruct r eqn:E; cbn [bind] in H; [|discriminate H..]; dbg E; step H
  | _ => dbg H
  end.

Theorem c70_debug_ring a b c : in_i64 a = true -> in_i64 b = true -> in_i64 c = true ->
  let x := sn_of_i64 a in let y := sn_of_i64 b in let z := sn_of_i64 c in
  equal_if_returned (let* s := sn_add Debug x y in sn_add Debug s z) (let* s := sn_add Debug y z in sn_add Debug x s) /\
  equal_if_returned (sn_sub Debug x y) (let* n := sn_neg Debug y in sn_add Debug x n) /\
  equal_if_returned (let* s := sn_mul Debug x y in sn_mul Debug s z) (let* s := sn_mul Debug y z in sn_mul Debug x s) /\
  equal_if_returned (let* s := sn_add Debug y z in sn_mul Debug x s)
              (let* p := sn_mul Debug x y in let* q := sn_mul Debug x z in sn_add Debug p q) /\
  equal_if_returned (let* s := sn_sub Debug y z in sn_mul Debug x s)
              (let* p := sn_mul Debug x y in let* q := sn_mul Debug x z in sn_sub Debug p q) /\
  equal_if_returned (let* n := sn_neg Debug x in sn_mul Debug n y) (let* p := sn_mul Debug x y in sn_neg Debug p).
Proof.
  intros Ha Hb Hc x y z. subst x y z. unfold equal_if_returned.
  repeat match goal with |- _ /\ _ => split end; intros u v H K; step H; step K; f_equal; ring.
Qed.
Print Assumptions c70_debug_ring.

(** ** (b) exact numbers (integers and fractions) in a debug build: products, quotients and
    negations that return are exact, hence the laws of a field hold by value *)

Lemma i64_of_D v r : in_i64 v = true -> rat_of_i64 Debug v = Ok r -> rat_of_i64 Strict v = Ok r.
Proof.
  intros Hv H. apply in_i64_iff in Hv. unfold rat_of_i64, i64_abs, ovf_i64 in *. destruct (in_i64 (Z.abs v)) eqn:E; [|discriminate H].
  cbn [bind] in *. rewrite cast_u64_in in * by (unfold two63, two64 in *; lia). exact H.
Qed.
Lemma rat_mul_D x y r : rat_mul Debug x y = Ok r -> rat_mul Strict x y = Ok r.
Proof.
  unfold rat_mul, i64_mul, u64_mul, ovf_i64, ovf_u64.
  repeat match goal with |- context [if ?c then _ else _] => destruct c end; cbn [bind]; congruence.
Qed.
Lemma rat_div_D x y r : rat_div Debug x y = Ok r -> rat_div Strict x y = Ok r.
Proof.
  unfold rat_div, i64_mul, u64_mul, ovf_i64, ovf_u64.
  repeat match goal with |- context [if ?c then _ else _] => destruct c end; cbn [bind]; congruence.
Qed.
Lemma approx_exact x : num_ok x -> not_float x -> approx x = false.
Proof.
  intros [_ T] N. unfold approx, sn_is_pi, sn_is_e. unfold not_float in N.
  destruct (ntag x); try reflexivity; rewrite T in N; contradiction.
Qed.

Ltac ds H := match type of H with
  | bind (rat_of_i64 Debug ?v) _ = Ok _ => let r := fresh "r" in let E := fresh "E" in
      destruct (rat_of_i64 Debug v) as [r| | |] eqn:E; cbn [bind] in H; [|discriminate H..];
      rewrite (i64_of_D v r) by assumption; cbn [bind]; ds H
  | bind (rat_mul Debug ?p ?q) _ = Ok _ => let r := fresh "r" in let E := fresh "E" in
      destruct (rat_mul Debug p q) as [r| | |] eqn:E; cbn [bind] in H; [|discriminate H..];
      rewrite (rat_mul_D p q r E); cbn [bind]; exact H
  | bind (rat_div Debug ?p ?q) _ = Ok _ => let r := fresh "r" in let E := fresh "E" in
      destruct (rat_div Debug p q) as [r| | |] eqn:E; cbn [bind] in H; [|discriminate H..];
      rewrite (rat_div_D p q r E); cbn [bind]; exact H
  end.

Lemma val_mul_D v w z : val_inv v -> val_inv w -> (forall f, v <> Real f) -> (forall f, w <> Real f) ->
  val_mul Debug v w = Ok z -> val_mul Strict v w = Ok z.
Proof.
  intros Vv Vw Nv Nw H. unfold val_mul in *. destruct (val_is_zero v || val_is_zero w); [exact H|].
  destruct v as [i|p|f]; [| |exfalso; exact (Nv f eq_refl)]; (destruct w as [j|q|g]; [| |exfalso; exact (Nw g eq_refl)]);
    cbn [val_inv] in *; try solve [ds H].
  unfold i64_mul, ovf_i64 in *. destruct (in_i64 (i * j)); [exact H|discriminate H].
Qed.
Lemma val_div_D v w z : val_inv v -> val_inv w -> (forall f, v <> Real f) -> (forall f, w <> Real f) ->
  val_div Debug v w = Ok z -> val_div Strict v w = Ok z.
Proof.
  intros Vv Vw Nv Nw H. unfold val_div in *. destruct (val_is_zero v); [exact H|].
  destruct v as [i|p|f]; [| |exfalso; exact (Nv f eq_refl)]; (destruct w as [j|q|g]; [| |exfalso; exact (Nw g eq_refl)]);
    cbn [val_inv] in *; ds H.
Qed.
Lemma nf_val x : not_float x -> forall f, nval x <> Real f.
Proof. intros N f E. unfold not_float in N. now rewrite E in N. Qed.

Lemma sn_mul_D x y z : num_ok x -> num_ok y -> not_float x -> not_float y ->
  sn_mul Debug x y = Ok z -> sn_mul Strict x y = Ok z.
Proof.
  intros Hx Hy Nx Ny H. unfold sn_mul in *. destruct (sn_is_one x); [exact H|]. destruct (sn_is_one y); [exact H|].
  rewrite (approx_exact x Hx Nx), (approx_exact y Hy Ny), !guard_false in *.
  destruct (val_mul Debug (nval x) (nval y)) eqn:E; try discriminate H.
  rewrite (val_mul_D _ _ _ (proj1 Hx) (proj1 Hy) (nf_val x Nx) (nf_val y Ny) E). exact H.
Qed.
Lemma sn_div_D x y z : num_ok x -> num_ok y -> not_float x -> not_float y ->
  sn_div Debug x y = Ok z -> sn_div Strict x y = Ok z.
Proof.
  intros Hx Hy Nx Ny H. unfold sn_div in *.
  rewrite (approx_exact x Hx Nx), (approx_exact y Hy Ny), !guard_false in *.
  destruct (val_div Debug (nval x) (nval y)) eqn:E; try discriminate H.
  rewrite (val_div_D _ _ _ (proj1 Hx) (proj1 Hy) (nf_val x Nx) (nf_val y Ny) E). exact H.
Qed.

Lemma exact_split x p : exact_Q x = Some p -> not_float x /\ val_Q (nval x) = Some p.
Proof. unfold exact_Q, not_float. destruct (nval x); [auto|auto|discriminate]. Qed.
Lemma exact_join x p : not_float x -> val_Q (nval x) = Some p -> exact_Q x = Some p.
Proof. unfold exact_Q, not_float. destruct (nval x); [auto|auto|contradiction]. Qed.

(** in a debug build a product, quotient or negation of integers and fractions that returns is
    the exact one *)
Theorem c70_debug_exact m x y p q : api_number m x -> api_number m y ->
  exact_Q x = Some p -> exact_Q y = Some q ->
  (forall z, sn_mul Debug x y = Ok z -> exists r, exact_Q z = Some r /\ (r == p * q)%Q) /\
  (forall z, ~ (q == 0)%Q -> sn_div Debug x y = Ok z -> exists r, exact_Q z = Some r /\ (r == p / q)%Q) /\
  (forall z, sn_neg Debug x = Ok z -> exists r, exact_Q z = Some r /\ (r == - p)%Q).
Proof.
  intros Hx Hy Hp Hq. apply api_number_ok in Hx, Hy.
  apply exact_split in Hp as [Nx Hp]. apply exact_split in Hq as [Ny Hq].
  split; [|split]; intros z.
  - intros H. destruct (sn_mul_strict x y z Hx Hy (sn_mul_D x y z Hx Hy Nx Ny H) p q Hp Hq) as (r & Hr & E).
    exists r. split; [|exact E]. apply exact_join; [|exact Hr]. exact (proj1 (sn_mul_kind _ _ _ _ H) Nx Ny).
  - intros Hz H. destruct (sn_div_strict x y z p q Hx Hy (sn_div_D x y z Hx Hy Nx Ny H) Hp Hq Hz) as (r & Hr & E).
    exists r. split; [|exact E]. apply exact_join; [|exact Hr]. exact (sn_div_kind _ _ _ _ H Nx Ny).
  - intros H.
    assert (sn_neg Strict x = Ok z) as HS.
    { unfold sn_neg in *. rewrite (approx_exact x Hx Nx), !guard_false in *. destruct (nval x) as [i|r|f] eqn:V.
      - cbn [val_neg] in *. unfold i64_neg, ovf_i64 in *. destruct (in_i64 (- i)); [exact H|discriminate H].
      - cbn [val_neg] in *. unfold rat_neg, i64_neg, ovf_i64 in *. destruct (in_i64 (- rsign r)); [exact H|discriminate H].
      - exfalso. exact (nf_val x Nx f V). }
    destruct (sn_neg_strict x z p Hx HS Hp) as (r & Hr & E). exists r. split; [|exact E].
    apply exact_join; [|exact Hr]. exact (proj1 (sn_neg_kind _ _ _ H) Nx).
Qed.
Print Assumptions c70_debug_exact.

(** two exact numbers of the same value *)
Definition same_value (u v : snum) : Prop := exists p q, exact_Q u = Some p /\ exact_Q v = Some q /\ (p == q)%Q.
Definition same_if_returned (r s : res snum) : Prop := forall u v, r = Ok u -> s = Ok v -> same_value u v.

Lemma api_mul m x y z : api_number m x -> api_number m y -> sn_mul m x y = Ok z -> api_number m z.
Proof. exact (An_mul m x y z). Qed.
Lemma api_div m x y z : api_number m x -> api_number m y -> sn_div m x y = Ok z -> api_number m z.
Proof. exact (An_div m x y z). Qed.

Section Field.
  Variables (x y z w : snum) (p q r s : Q).
  Hypothesis Hx : api_number Debug x. Hypothesis Hy : api_number Debug y.
  Hypothesis Hz : api_number Debug z. Hypothesis Hw : api_number Debug w.
  Hypothesis Ep : exact_Q x = Some p. Hypothesis Eq : exact_Q y = Some q.
  Hypothesis Er : exact_Q z = Some r. Hypothesis Es : exact_Q w = Some s.

  Lemma fmul a b c u v : api_number Debug a -> api_number Debug b -> exact_Q a = Some u -> exact_Q b = Some v ->
    sn_mul Debug a b = Ok c -> api_number Debug c /\ exists t, exact_Q c = Some t /\ (t == u * v)%Q.
  Proof.
    intros A B U V H. split; [exact (api_mul _ _ _ _ A B H)|].
    exact (proj1 (c70_debug_exact Debug a b u v A B U V) c H).
  Qed.
  Lemma fdiv a b c u v : api_number Debug a -> api_number Debug b -> exact_Q a = Some u -> exact_Q b = Some v ->
    ~ (v == 0)%Q -> sn_div Debug a b = Ok c -> api_number Debug c /\ exists t, exact_Q c = Some t /\ (t == u / v)%Q.
  Proof.
    intros A B U V N H. split; [exact (api_div _ _ _ _ A B H)|].
    exact (proj1 (proj2 (c70_debug_exact Debug a b u v A B U V)) c N H).
  Qed.

  Lemma law_assoc : same_if_returned (let* k := sn_mul Debug x y in sn_mul Debug k z) (let* k := sn_mul Debug y z in sn_mul Debug x k).
  Proof.
    intros u v H K. destruct (sn_mul Debug x y) as [a| | |] eqn:E1; try discriminate H. cbn [bind] in H.
    destruct (sn_mul Debug y z) as [b| | |] eqn:E2; try discriminate K. cbn [bind] in K.
    destruct (fmul _ _ _ _ _ Hx Hy Ep Eq E1) as (A & ta & Ta & Qa).
    destruct (fmul _ _ _ _ _ Hy Hz Eq Er E2) as (B & tb & Tb & Qb).
    destruct (fmul _ _ _ _ _ A Hz Ta Er H) as (_ & tu & Tu & Qu).
    destruct (fmul _ _ _ _ _ Hx B Ep Tb K) as (_ & tv & Tv & Qv).
    exists tu, tv. split; [exact Tu|]. split; [exact Tv|]. rewrite Qu, Qv, Qa, Qb. ring.
  Qed.
  Lemma law_div_mul : ~ (q == 0)%Q -> same_if_returned (let* k := sn_div Debug x y in sn_mul Debug k y) (Ok x).
  Proof.
    intros N u v H K. injection K as <-. destruct (sn_div Debug x y) as [a| | |] eqn:E1; try discriminate H. cbn [bind] in H.
    destruct (fdiv _ _ _ _ _ Hx Hy Ep Eq N E1) as (A & ta & Ta & Qa).
    destruct (fmul _ _ _ _ _ A Hy Ta Eq H) as (_ & tu & Tu & Qu).
    exists tu, p. split; [exact Tu|]. split; [exact Ep|]. rewrite Qu, Qa. field. exact N.
  Qed.
  Lemma law_mul_div : ~ (q == 0)%Q -> same_if_returned (let* k := sn_mul Debug x y in sn_div Debug k y) (Ok x).
  Proof.
    intros N u v H K. injection K as <-. destruct (sn_mul Debug x y) as [a| | |] eqn:E1; try discriminate H. cbn [bind] in H.
    destruct (fmul _ _ _ _ _ Hx Hy Ep Eq E1) as (A & ta & Ta & Qa).
    destruct (fdiv _ _ _ _ _ A Hy Ta Eq N H) as (_ & tu & Tu & Qu).
    exists tu, p. split; [exact Tu|]. split; [exact Ep|]. rewrite Qu, Qa. field. exact N.
  Qed.
  Lemma law_div_div : ~ (q == 0)%Q -> ~ (r == 0)%Q ->
    same_if_returned (let* k := sn_div Debug x y in sn_div Debug k z) (let* k := sn_mul Debug y z in sn_div Debug x k).
  Proof.
    intros N M u v H K. destruct (sn_div Debug x y) as [a| | |] eqn:E1; try discriminate H. cbn [bind] in H.
    destruct (sn_mul Debug y z) as [b| | |] eqn:E2; try discriminate K. cbn [bind] in K.
    destruct (fdiv _ _ _ _ _ Hx Hy Ep Eq N E1) as (A & ta & Ta & Qa).
    destruct (fmul _ _ _ _ _ Hy Hz Eq Er E2) as (B & tb & Tb & Qb).
    assert (~ (tb == 0)%Q) as P. { rewrite Qb. intros C. apply Qmult_integral in C as [C|C]; contradiction. }
    destruct (fdiv _ _ _ _ _ A Hz Ta Er M H) as (_ & tu & Tu & Qu).
    destruct (fdiv _ _ _ _ _ Hx B Ep Tb P K) as (_ & tv & Tv & Qv).
    exists tu, tv. split; [exact Tu|]. split; [exact Tv|]. rewrite Qu, Qv, Qa, Qb. field. split; assumption.
  Qed.
  Lemma law_frac_mul : ~ (q == 0)%Q -> ~ (s == 0)%Q ->
    same_if_returned (let* k := sn_div Debug x y in let* l := sn_div Debug z w in sn_mul Debug k l)
                     (let* k := sn_mul Debug x z in let* l := sn_mul Debug y w in sn_div Debug k l).
  Proof.
    intros N M u v H K. destruct (sn_div Debug x y) as [a| | |] eqn:E1; try discriminate H. cbn [bind] in H.
    destruct (sn_div Debug z w) as [b| | |] eqn:E2; try discriminate H. cbn [bind] in H.
    destruct (sn_mul Debug x z) as [c| | |] eqn:E3; try discriminate K. cbn [bind] in K.
    destruct (sn_mul Debug y w) as [d| | |] eqn:E4; try discriminate K. cbn [bind] in K.
    destruct (fdiv _ _ _ _ _ Hx Hy Ep Eq N E1) as (A & ta & Ta & Qa).
    destruct (fdiv _ _ _ _ _ Hz Hw Er Es M E2) as (B & tb & Tb & Qb).
    destruct (fmul _ _ _ _ _ Hx Hz Ep Er E3) as (C & tc & Tc & Qc).
    destruct (fmul _ _ _ _ _ Hy Hw Eq Es E4) as (D & td & Td & Qd).
    assert (~ (td == 0)%Q) as P. { rewrite Qd. intros F. apply Qmult_integral in F as [F|F]; contradiction. }
    destruct (fmul _ _ _ _ _ A B Ta Tb H) as (_ & tu & Tu & Qu).
    destruct (fdiv _ _ _ _ _ C D Tc Td P K) as (_ & tv & Tv & Qv).
    exists tu, tv. split; [exact Tu|]. split; [exact Tv|]. rewrite Qu, Qv, Qa, Qb, Qc, Qd. field. split; assumption.
  Qed.
End Field.

(** the multiplicative laws: (xy)z = x(yz); (x/y)y = x; (xy)/y = x; (x/y)/z = x/(yz);
    (x/y)(z/w) = (xz)/(yw), whenever both sides return and the divisors are not zero *)
Theorem c70_debug_field x y z w p q r s :
  api_number Debug x -> api_number Debug y -> api_number Debug z -> api_number Debug w ->
  exact_Q x = Some p -> exact_Q y = Some q -> exact_Q z = Some r -> exact_Q w = Some s ->
  same_if_returned (let* k := sn_mul Debug x y in sn_mul Debug k z) (let* k := sn_mul Debug y z in sn_mul Debug x k) /\
  (~ (q == 0)%Q -> same_if_returned (let* k := sn_div Debug x y in sn_mul Debug k y) (Ok x)) /\
  (~ (q == 0)%Q -> same_if_returned (let* k := sn_mul Debug x y in sn_div Debug k y) (Ok x)) /\
  (~ (q == 0)%Q -> ~ (r == 0)%Q ->
     same_if_returned (let* k := sn_div Debug x y in sn_div Debug k z) (let* k := sn_mul Debug y z in sn_div Debug x k)) /\
  (~ (q == 0)%Q -> ~ (s == 0)%Q ->
     same_if_returned (let* k := sn_div Debug x y in let* l := sn_div Debug z w in sn_mul Debug k l)
                      (let* k := sn_mul Debug x z in let* l := sn_mul Debug y w in sn_div Debug k l)).
Proof.
  intros. refine (conj _ (conj _ (conj _ (conj _ _)))); intros.
  - eapply law_assoc; eassumption.
  - eapply law_div_mul; eassumption.
  - eapply law_mul_div; eassumption.
  - eapply law_div_div; eassumption.
  - eapply law_frac_mul; eassumption.
Qed.
Print Assumptions c70_debug_field.

(** addition of fractions obeys no such laws, because of C06: in a debug build (x+y)+z and
    x+(y+z) both return and have opposite signs; so do a(x+y) and ax+ay *)
Definition big_half : snum := mkNum (Rational (mkRat 1 (two63 + 1) 2)) TNothing.
Lemma api_big_half : api_number Debug big_half.
Proof. apply (An_rational Debug 1 (two63 + 1) 2); reflexivity. Qed.

Theorem c70_fraction_sum_refuted : exists x y z u v p q,
  api_number Debug x /\ api_number Debug y /\ api_number Debug z /\
  (let* k := sn_add Debug x y in sn_add Debug k z) = Ok u /\
  (let* k := sn_add Debug y z in sn_add Debug x k) = Ok v /\
  exact_Q u = Some p /\ exact_Q v = Some q /\ (p < 0)%Q /\ (0 < q)%Q.
Proof.
  exists big_half, sn_one, (sn_of_i64 (-1)). do 4 eexists.
  split; [exact api_big_half|]. split; [apply An_one|]. split; [apply An_i64; reflexivity|].
  repeat (split; [vm_compute; reflexivity|]). vm_compute; reflexivity.
Qed.
Print Assumptions c70_fraction_sum_refuted.

Theorem c70_fraction_distributive_refuted : exists a x y u v p q,
  api_number Debug a /\ api_number Debug x /\ api_number Debug y /\
  (let* k := sn_add Debug x y in sn_mul Debug a k) = Ok u /\
  (let* k := sn_mul Debug a x in let* l := sn_mul Debug a y in sn_add Debug k l) = Ok v /\
  exact_Q u = Some p /\ exact_Q v = Some q /\ (0 < p)%Q /\ (q < 0)%Q.
Proof.
  exists (sn_of_i64 (-1)), (sn_of_i64 (2 ^ 62 + 1)), (mkNum (Rational (mkRat 1 2 2)) TOne). do 4 eexists.
  split; [apply An_i64; reflexivity|]. split; [apply An_i64; reflexivity|].
  split; [apply (An_rational Debug 1 2 2); reflexivity|].
  repeat (split; [vm_compute; reflexivity|]). vm_compute; reflexivity.
Qed.
Print Assumptions c70_fraction_distributive_refuted.

(** without the wrap of C06 (lossless runs) sums obey the laws too *)
Theorem c70_lossless_sums x y z w p q r :
  api_number Debug x -> api_number Debug y -> api_number Debug z ->
  exact_Q x = Some p -> exact_Q y = Some q -> exact_Q z = Some r ->
  (forall u v, (let* k := sn_add Strict x y in sn_add Strict k z) = Ok u ->
     (let* k := sn_add Strict y z in sn_add Strict x k) = Ok v -> same_value u v) /\
  (forall u v, (let* k := sn_add Strict y z in sn_mul Strict x k) = Ok u ->
     (let* k := sn_mul Strict x y in let* l := sn_mul Strict x z in sn_add Strict k l) = Ok v -> same_value u v) /\
  (forall v, (let* k := sn_sub Strict x y in sn_add Strict k y) = Ok v -> same_value v x) /\
  (forall u, sn_sub Strict x y = Ok u -> (let* k := sn_neg Strict y in sn_add Strict x k) = Ok w -> same_value u w).
Proof.
  intros Hx Hy Hz Ep Eq Er. apply api_number_ok in Hx, Hy, Hz.
  assert (forall a b c u v, num_ok a -> num_ok b -> exact_Q a = Some u -> exact_Q b = Some v -> sn_add Strict a b = Ok c ->
    num_ok c /\ exists t, exact_Q c = Some t /\ (t == u + v)%Q) as FA.
  { intros a b c u v A B U V H. split; [exact (sn_add_ok _ _ _ _ A B H)|]. apply exact_split in U as [NU U], V as [NV V].
    destruct (sn_add_strict a b c A B H u v U V) as (t & T & Q). exists t. split; [|exact Q].
    apply exact_join; [exact (proj1 (sn_add_kind _ _ _ _ H) NU NV)|exact T]. }
  assert (forall a b c u v, num_ok a -> num_ok b -> exact_Q a = Some u -> exact_Q b = Some v -> sn_sub Strict a b = Ok c ->
    num_ok c /\ exists t, exact_Q c = Some t /\ (t == u - v)%Q) as FS.
  { intros a b c u v A B U V H. split; [exact (sn_sub_ok _ _ _ _ A B H)|]. apply exact_split in U as [NU U], V as [NV V].
    destruct (sn_sub_strict a b c A B H u v U V) as (t & T & Q). exists t. split; [|exact Q].
    apply exact_join; [exact (proj1 (sn_sub_kind _ _ _ _ H) NU NV)|exact T]. }
  assert (forall a b c u v, num_ok a -> num_ok b -> exact_Q a = Some u -> exact_Q b = Some v -> sn_mul Strict a b = Ok c ->
    num_ok c /\ exists t, exact_Q c = Some t /\ (t == u * v)%Q) as FM.
  { intros a b c u v A B U V H. split; [exact (sn_mul_ok _ _ _ _ A B H)|]. apply exact_split in U as [NU U], V as [NV V].
    destruct (sn_mul_strict a b c A B H u v U V) as (t & T & Q). exists t. split; [|exact Q].
    apply exact_join; [exact (proj1 (sn_mul_kind _ _ _ _ H) NU NV)|exact T]. }
  assert (forall a c u, num_ok a -> exact_Q a = Some u -> sn_neg Strict a = Ok c ->
    num_ok c /\ exists t, exact_Q c = Some t /\ (t == - u)%Q) as FN.
  { intros a c u A U H. split; [exact (sn_neg_ok _ _ _ A H)|]. apply exact_split in U as [NU U].
    destruct (sn_neg_strict a c u A H U) as (t & T & Q). exists t. split; [|exact Q].
    apply exact_join; [exact (proj1 (sn_neg_kind _ _ _ H) NU)|exact T]. }
  refine (conj _ (conj _ (conj _ _))).
  - intros u v H K. destruct (sn_add Strict x y) as [a| | |] eqn:E1; try discriminate H. cbn [bind] in H.
    destruct (sn_add Strict y z) as [b| | |] eqn:E2; try discriminate K. cbn [bind] in K.
    destruct (FA _ _ _ _ _ Hx Hy Ep Eq E1) as (A & ta & Ta & Qa), (FA _ _ _ _ _ Hy Hz Eq Er E2) as (B & tb & Tb & Qb).
    destruct (FA _ _ _ _ _ A Hz Ta Er H) as (_ & tu & Tu & Qu), (FA _ _ _ _ _ Hx B Ep Tb K) as (_ & tv & Tv & Qv).
    exists tu, tv. split; [exact Tu|]. split; [exact Tv|]. rewrite Qu, Qv, Qa, Qb. ring.
  - intros u v H K. destruct (sn_add Strict y z) as [a| | |] eqn:E1; try discriminate H. cbn [bind] in H.
    destruct (sn_mul Strict x y) as [b| | |] eqn:E2; try discriminate K. cbn [bind] in K.
    destruct (sn_mul Strict x z) as [c| | |] eqn:E3; try discriminate K. cbn [bind] in K.
    destruct (FA _ _ _ _ _ Hy Hz Eq Er E1) as (A & ta & Ta & Qa), (FM _ _ _ _ _ Hx Hy Ep Eq E2) as (B & tb & Tb & Qb),
      (FM _ _ _ _ _ Hx Hz Ep Er E3) as (C & tc & Tc & Qc).
    destruct (FM _ _ _ _ _ Hx A Ep Ta H) as (_ & tu & Tu & Qu), (FA _ _ _ _ _ B C Tb Tc K) as (_ & tv & Tv & Qv).
    exists tu, tv. split; [exact Tu|]. split; [exact Tv|]. rewrite Qu, Qv, Qa, Qb, Qc. ring.
  - intros v H. destruct (sn_sub Strict x y) as [a| | |] eqn:E1; try discriminate H. cbn [bind] in H.
    destruct (FS _ _ _ _ _ Hx Hy Ep Eq E1) as (A & ta & Ta & Qa), (FA _ _ _ _ _ A Hy Ta Eq H) as (_ & tv & Tv & Qv).
    exists tv, p. split; [exact Tv|]. split; [exact Ep|]. rewrite Qv, Qa. ring.
  - intros u H K. destruct (sn_neg Strict y) as [a| | |] eqn:E1; try discriminate K. cbn [bind] in K.
    destruct (FN _ _ _ Hy Eq E1) as (A & ta & Ta & Qa), (FS _ _ _ _ _ Hx Hy Ep Eq H) as (_ & tu & Tu & Qu),
      (FA _ _ _ _ _ Hx A Ep Ta K) as (_ & tw & Tw & Qw).
    exists tu, tw. split; [exact Tu|]. split; [exact Tw|]. rewrite Qu, Qw, Qa. ring.
Qed.
Print Assumptions c70_lossless_sums.

Example c70_example : exists x y z, api_number Debug x /\ api_number Debug y /\
  exact_Q x = Some (2 # 3)%Q /\ exact_Q y = Some (-5 # 7)%Q /\
  (let* k := sn_div Debug x y in sn_mul Debug k y) = Ok z /\ exact_Q z = Some (2 # 3)%Q /\
  (let* k := sn_sub Strict x y in sn_add Strict k y) = Ok z /\
  sn_mul Release (sn_of_i64 (2 ^ 62)) (sn_of_i64 6) = Ok (sn_of_i64 (- two63)).
Proof.
  exists (mkNum (Rational (mkRat 1 2 3)) TNothing), (mkNum (Rational (mkRat (-1) 5 7)) TNothing). eexists.
  split; [apply (An_rational Debug 1 2 3); reflexivity|]. split; [apply (An_rational Debug (-1) 5 7); reflexivity|].
  repeat (split; [vm_compute; reflexivity|]). vm_compute; reflexivity.
Qed.
