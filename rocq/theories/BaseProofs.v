(** * BaseProofs: lemmas about outcomes, modes and machine integers *)
From Coq Require Import ZArith List Bool Lia.
From Verif Require Import Base.
Import ListNotations.
Open Scope Z_scope.
Open Scope res_scope.

Lemma bind_ok {A B} (r : res A) (f : A -> res B) b :
  bind r f = Ok b <-> exists a, r = Ok a /\ f a = Ok b.
Proof.
  split.
  - destruct r; simpl; intros H; try discriminate. eauto.
  - intros (a & -> & H). exact H.
Qed.

(** [inv_bind H] turns [bind r f = Ok b] into its two halves, repeatedly *)
Ltac inv_bind H :=
  match type of H with
  | bind _ _ = Ok _ =>
      apply bind_ok in H;
      let a := fresh "a" in let H1 := fresh "Hb" in
      destruct H as (a & H1 & H); cbn beta iota in H
  end.

(** ** refinement of outcomes along the order Strict <= Debug <= Release *)
Definition refines {A} (a b : res A) : Prop := forall v, a = Ok v -> b = Ok v.

Definition mle (m1 m2 : mode) : Prop :=
  match m1, m2 with
  | Strict, _ => True
  | Debug, Debug | Debug, Release => True
  | Release, Release => True
  | _, _ => False
  end.

Lemma mle_refl m : mle m m. Proof. destruct m; exact I. Qed.
Lemma mle_trans a b c : mle a b -> mle b c -> mle a c.
Proof. destruct a, b, c; simpl; tauto. Qed.

Lemma refines_refl {A} (a : res A) : refines a a. Proof. intros v H; exact H. Qed.

Lemma refines_bind {A B} (a b : res A) (f g : A -> res B) :
  refines a b -> (forall x, a = Ok x -> refines (f x) (g x)) -> refines (bind a f) (bind b g).
Proof.
  intros Hab Hfg v H. apply bind_ok in H as (x & Hx & Hv).
  apply bind_ok. exists x. split; [apply Hab; exact Hx | apply Hfg; assumption].
Qed.

Lemma refines_if {A} (c : bool) (a b a' b' : res A) :
  refines a a' -> refines b b' -> refines (if c then a else b) (if c then a' else b').
Proof. destruct c; auto. Qed.

Lemma ovf_i64_mono m1 m2 z : mle m1 m2 -> refines (ovf_i64 m1 z) (ovf_i64 m2 z).
Proof. unfold refines, ovf_i64. destruct (in_i64 z), m1, m2; simpl; intros; try tauto; congruence. Qed.
Lemma ovf_u64_mono m1 m2 z : mle m1 m2 -> refines (ovf_u64 m1 z) (ovf_u64 m2 z).
Proof. unfold refines, ovf_u64. destruct (in_u64 z), m1, m2; simpl; intros; try tauto; congruence. Qed.
Lemma cast_i64_mono m1 m2 z : mle m1 m2 -> refines (cast_i64 m1 z) (cast_i64 m2 z).
Proof. unfold refines, cast_i64. destruct (in_i64 z), m1, m2; simpl; intros; try tauto; congruence. Qed.
Lemma cast_u64_mono m1 m2 z : mle m1 m2 -> refines (cast_u64 m1 z) (cast_u64 m2 z).
Proof. unfold refines, cast_u64. destruct (in_u64 z), m1, m2; simpl; intros; try tauto; congruence. Qed.

(** ** machine ranges *)
Lemma in_i64_iff z : in_i64 z = true <-> - two63 <= z < two63.
Proof. unfold in_i64. rewrite andb_true_iff, Z.leb_le, Z.ltb_lt. tauto. Qed.
Lemma in_u64_iff z : in_u64 z = true <-> 0 <= z < two64.
Proof. unfold in_u64. rewrite andb_true_iff, Z.leb_le, Z.ltb_lt. tauto. Qed.

Lemma wrap_i64_range z : - two63 <= wrap_i64 z < two63.
Proof.
  unfold wrap_i64. pose proof (Z.mod_pos_bound (z + two63) two64 eq_refl).
  unfold two63, two64 in *. lia.
Qed.
Lemma wrap_u64_range z : 0 <= wrap_u64 z < two64.
Proof. unfold wrap_u64. apply Z.mod_pos_bound. reflexivity. Qed.

Lemma ovf_i64_ok m z v : ovf_i64 m z = Ok v -> - two63 <= v < two63.
Proof.
  unfold ovf_i64. destruct (in_i64 z) eqn:E.
  - intros [= <-]. apply in_i64_iff, E.
  - destruct m; try discriminate. intros [= <-]. apply wrap_i64_range.
Qed.
Lemma ovf_u64_ok m z v : ovf_u64 m z = Ok v -> 0 <= v < two64.
Proof.
  unfold ovf_u64. destruct (in_u64 z) eqn:E.
  - intros [= <-]. apply in_u64_iff, E.
  - destruct m; try discriminate. intros [= <-]. apply wrap_u64_range.
Qed.
Lemma cast_i64_ok m z v : cast_i64 m z = Ok v -> - two63 <= v < two63.
Proof.
  unfold cast_i64. destruct (in_i64 z) eqn:E.
  - intros [= <-]. apply in_i64_iff, E.
  - destruct m; try discriminate; intros [= <-]; apply wrap_i64_range.
Qed.
Lemma cast_u64_ok m z v : cast_u64 m z = Ok v -> 0 <= v < two64.
Proof.
  unfold cast_u64. destruct (in_u64 z) eqn:E.
  - intros [= <-]. apply in_u64_iff, E.
  - destruct m; try discriminate; intros [= <-]; apply wrap_u64_range.
Qed.

Lemma ovf_i64_in m z : - two63 <= z < two63 -> ovf_i64 m z = Ok z.
Proof. intros H. unfold ovf_i64. apply in_i64_iff in H. rewrite H. reflexivity. Qed.
Lemma ovf_u64_in m z : 0 <= z < two64 -> ovf_u64 m z = Ok z.
Proof. intros H. unfold ovf_u64. apply in_u64_iff in H. rewrite H. reflexivity. Qed.
Lemma cast_i64_in m z : - two63 <= z < two63 -> cast_i64 m z = Ok z.
Proof. intros H. unfold cast_i64. apply in_i64_iff in H. rewrite H. reflexivity. Qed.
Lemma cast_u64_in m z : 0 <= z < two64 -> cast_u64 m z = Ok z.
Proof. intros H. unfold cast_u64. apply in_u64_iff in H. rewrite H. reflexivity. Qed.

(** outside release, a returned checked result is the exact one *)
Lemma ovf_i64_exact m z v : m <> Release -> ovf_i64 m z = Ok v -> v = z /\ - two63 <= z < two63.
Proof.
  intros Hm. unfold ovf_i64. destruct (in_i64 z) eqn:E.
  - intros [= <-]. split; [reflexivity | apply in_i64_iff, E].
  - destruct m; congruence.
Qed.
Lemma ovf_u64_exact m z v : m <> Release -> ovf_u64 m z = Ok v -> v = z /\ 0 <= z < two64.
Proof.
  intros Hm. unfold ovf_u64. destruct (in_u64 z) eqn:E.
  - intros [= <-]. split; [reflexivity | apply in_u64_iff, E].
  - destruct m; congruence.
Qed.
Lemma cast_i64_exact z v : cast_i64 Strict z = Ok v -> v = z /\ - two63 <= z < two63.
Proof.
  unfold cast_i64. destruct (in_i64 z) eqn:E.
  - intros [= <-]. split; [reflexivity | apply in_i64_iff, E].
  - discriminate.
Qed.
Lemma cast_u64_exact z v : cast_u64 Strict z = Ok v -> v = z /\ 0 <= z < two64.
Proof.
  unfold cast_u64. destruct (in_u64 z) eqn:E.
  - intros [= <-]. split; [reflexivity | apply in_u64_iff, E].
  - discriminate.
Qed.

(** the i64 range fits: [abs() as u64] is the absolute value in every mode that returns *)
Lemma abs_as_u64 m v r :
  - two63 <= v < two63 ->
  bind (ovf_i64 m (Z.abs v)) (fun a => cast_u64 m a) = Ok r -> r = Z.abs v.
Proof.
  intros Hv H. inv_bind H. unfold ovf_i64 in Hb.
  destruct (in_i64 (Z.abs v)) eqn:E.
  - injection Hb as <-. unfold cast_u64 in H.
    assert (0 <= Z.abs v < two64) as Hr by (unfold two63, two64 in *; lia).
    apply in_u64_iff in Hr. rewrite Hr in H. congruence.
  - assert (v = - two63) as ->.
    { assert (~ (- two63 <= Z.abs v < two63)) by (rewrite <- in_i64_iff; congruence). lia. }
    destruct m; try discriminate. injection Hb as <-.
    vm_compute in H. injection H as <-. reflexivity.
Qed.

Lemma pop_snoc {A} (l : list A) (x : A) : pop (l ++ [x]) = Some (x, l).
Proof.
  induction l as [|y l IH]; [reflexivity|].
  change ((y :: l) ++ [x]) with (y :: (l ++ [x])).
  cbn [pop]. destruct (l ++ [x]) eqn:E.
  - destruct l; discriminate.
  - rewrite IH. reflexivity.
Qed.

Lemma pop_Some {A} (l : list A) x r : pop l = Some (x, r) <-> l = r ++ [x].
Proof.
  split.
  - intros H. destruct l as [|a l0]; [discriminate|].
    destruct (exists_last (l := a :: l0)) as (l' & y & E); [congruence|].
    rewrite E in *. rewrite pop_snoc in H. congruence.
  - intros ->. apply pop_snoc.
Qed.
