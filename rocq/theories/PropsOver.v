(** * PropsOver: exactly when a debug build panics on exact numbers (C87) *)
From Coq Require Import ZArith QArith List String Bool Lia.
From Verif Require Import Base Float Rational SmartNum Spec SpecWrap SpecOver.
From Verif Require Import BaseProofs RationalProofs NumProofs NumProofs2 ModProofs PropsNum PropsNum2 PropsSmall PropsWrap.
Open Scope Z_scope.

Lemma pi_iff {A} (r : res A) P Q : panics_iff r P -> (P <-> Q) -> panics_iff r Q.
Proof. unfold panics_iff. intros [(E & H)|(E & H)] I; [left|right]; tauto. Qed.
Lemma pi_bind {A B} (r : res A) (f : A -> B) P : panics_iff r P -> panics_iff (let* x := r in Ok (f x)) P.
Proof. intros [(-> & H)|((z & ->) & H)]; [left; auto|right]. split; [eexists; reflexivity|exact H]. Qed.

Lemma ovf_i64_pi z : panics_iff (ovf_i64 Debug z) (outside_i64 z).
Proof.
  unfold ovf_i64, outside_i64. destruct (in_i64 z) eqn:E.
  - right. split; [eexists; reflexivity|]. apply in_i64_iff in E. rewrite <- two_63. lia.
  - left. split; [reflexivity|]. rewrite <- two_63. destruct (Z_lt_dec z (- two63)); [left; assumption|right].
    destruct (Z_lt_dec z two63); [|lia]. assert (in_i64 z = true) by (apply in_i64_iff; lia). congruence.
Qed.
Lemma ovf_u64_pi z : 0 <= z -> panics_iff (ovf_u64 Debug z) (2 ^ 64 <= z).
Proof.
  intros P. unfold ovf_u64. destruct (in_u64 z) eqn:E.
  - right. split; [eexists; reflexivity|]. apply in_u64_iff in E. rewrite <- two_64. lia.
  - left. split; [reflexivity|]. rewrite <- two_64. destruct (Z_lt_dec z two64); [|lia].
    assert (in_u64 z = true) by (apply in_u64_iff; lia). congruence.
Qed.
Lemma mk_pi s t n d : sg3 s -> sg3 t -> 0 <= n -> 0 <= d ->
  panics_iff (let* s := i64_mul Debug s t in let* n := ovf_u64 Debug n in let* d := ovf_u64 Debug d in Ok (rat_reduce (mkRat s n d)))
    (2 ^ 64 <= n \/ 2 ^ 64 <= d).
Proof.
  intros A B N D. unfold i64_mul. rewrite ovf_i64_in by (destruct (sg3_mul _ _ A B) as [-> | [-> | ->]]; unfold two63; lia). cbn [bind].
  destruct (ovf_u64_pi n N) as [(-> & H)|((u & ->) & H)]; cbn [bind]; [left; auto|].
  destruct (ovf_u64_pi d D) as [(-> & H')|((v & ->) & H')]; cbn [bind]; [left; auto|]. right. split; [eexists; reflexivity|tauto].
Qed.

Definition xsum (op : Z -> Z -> Z) (x y : rat) : Z :=
  op (rsign x * as_signed (rnum x * rden y)) (rsign y * as_signed (rnum y * rden x)).
Definition xover (op : Z -> Z -> Z) (x y : rat) : Prop :=
  let p := rnum x * rden y in let q := rnum y * rden x in
  2 ^ 64 <= p \/ 2 ^ 64 <= q \/ 2 ^ 64 <= rden x * rden y \/ (p = 2 ^ 63 /\ rsign x = -1) \/ (q = 2 ^ 63 /\ rsign y = -1) \/
  2 ^ 63 <= Z.abs (xsum op x y).
Lemma lost_as p : p - two64 * lost p = as_signed p.
Proof. unfold lost, as_signed. rewrite <- two_63. destruct (Z.leb_spec two63 p), (Z.ltb_spec p two63); rewrite <- ?two_64; lia. Qed.
Lemma cross_pi n d s : 0 <= n -> 0 <= d -> sg3 s ->
  (rat_cross Debug n d s = Panic /\ (2 ^ 64 <= n * d \/ (n * d = 2 ^ 63 /\ s = -1))) \/
  (rat_cross Debug n d s = Ok (s * as_signed (n * d)) /\ n * d < 2 ^ 64 /\ ~ (n * d = 2 ^ 63 /\ s = -1)).
Proof.
  intros N D S. destruct (cross_debug n d s N D) as [(E & H)|(E & H)]; [exact S|left|right]; (split; [|exact H]); [exact E|].
  rewrite E, lost_as. reflexivity.
Qed.
Lemma finish_pi s d1 d2 : 0 <= d1 -> 0 <= d2 -> panics_iff (rat_finish Debug s d1 d2) (2 ^ 63 <= Z.abs s \/ 2 ^ 64 <= d1 * d2).
Proof.
  intros A B. unfold rat_finish, i64_abs, u64_mul. destruct (ovf_i64_pi (Z.abs s)) as [(-> & H)|((a & E) & H)].
  - left. split; [reflexivity|]. unfold outside_i64 in H. lia.
  - rewrite E. assert (a = Z.abs s) as ->. { unfold ovf_i64 in E. destruct (in_i64 (Z.abs s)); congruence. }
    unfold outside_i64 in H. cbn [bind]. rewrite cast_u64_in by (rewrite two_64; lia). cbn [bind].
    destruct (ovf_u64_pi (d1 * d2)) as [(-> & H')|((v & ->) & H')]; [nia|left; auto|]. right. split; [eexists; reflexivity|lia].
Qed.
Lemma add_pi x y : sg3 (rsign x) -> sg3 (rsign y) -> 0 <= rnum x -> 0 <= rden x -> 0 <= rnum y -> 0 <= rden y ->
  panics_iff (rat_add Debug x y) (xover Z.add x y).
Proof.
  intros S1 S2 N1 D1 N2 D2. unfold rat_add.
  destruct (cross_pi (rnum x) (rden y) (rsign x) N1 D2 S1) as [(-> & C)|(-> & C1 & C2)]; cbn [bind].
  { left. split; [reflexivity|]. unfold xover. tauto. }
  replace (rat_cross Debug (rden x) (rnum y) (rsign y)) with (rat_cross Debug (rnum y) (rden x) (rsign y))
    by (unfold rat_cross, u64_mul; rewrite (Z.mul_comm (rnum y)); reflexivity).
  destruct (cross_pi (rnum y) (rden x) (rsign y) N2 D1 S2) as [(-> & C)|(-> & C3 & C4)]; cbn [bind].
  { left. split; [reflexivity|]. unfold xover. tauto. }
  unfold i64_add. fold (xsum Z.add x y). destruct (ovf_i64_pi (xsum Z.add x y)) as [(-> & C)|((a & E) & C)]; cbn [bind].
  { left. split; [reflexivity|]. unfold xover. unfold outside_i64 in C. lia. }
  rewrite E. assert (a = xsum Z.add x y) as ->. { unfold ovf_i64 in E. destruct (in_i64 (xsum Z.add x y)); congruence. } cbn [bind].
  eapply pi_iff; [apply finish_pi; assumption|]. unfold xover. lia.
Qed.
Lemma sub_pi x y : sg3 (rsign x) -> sg3 (rsign y) -> 0 <= rnum x -> 0 <= rden x -> 0 <= rnum y -> 0 <= rden y ->
  panics_iff (rat_sub Debug x y) (xover Z.sub x y).
Proof.
  intros S1 S2 N1 D1 N2 D2. unfold rat_sub.
  destruct (cross_pi (rnum x) (rden y) (rsign x) N1 D2 S1) as [(-> & C)|(-> & C1 & C2)]; cbn [bind].
  { left. split; [reflexivity|]. unfold xover. tauto. }
  replace (rat_cross Debug (rden x) (rnum y) (rsign y)) with (rat_cross Debug (rnum y) (rden x) (rsign y))
    by (unfold rat_cross, u64_mul; rewrite (Z.mul_comm (rnum y)); reflexivity).
  destruct (cross_pi (rnum y) (rden x) (rsign y) N2 D1 S2) as [(-> & C)|(-> & C3 & C4)]; cbn [bind].
  { left. split; [reflexivity|]. unfold xover. tauto. }
  unfold i64_sub. fold (xsum Z.sub x y). destruct (ovf_i64_pi (xsum Z.sub x y)) as [(-> & C)|((a & E) & C)]; cbn [bind].
  { left. split; [reflexivity|]. unfold xover. unfold outside_i64 in C. lia. }
  rewrite E. assert (a = xsum Z.sub x y) as ->. { unfold ovf_i64 in E. destruct (in_i64 (xsum Z.sub x y)); congruence. } cbn [bind].
  eapply pi_iff; [apply finish_pi; assumption|]. unfold xover. lia.
Qed.

(** numbers: converting an operand panics for i64::MIN only *)
Lemma rat_of_dbg i : in_i64 i = true -> (i = - two63 /\ rat_of_i64 Debug i = Panic) \/ (i <> - two63 /\ rat_of_i64 Debug i = Ok (as_rat (Integer i))).
Proof.
  intros H. apply in_i64_iff in H. destruct (Z.eq_dec i (- two63)) as [-> |N]; [left; split; reflexivity|right]. split; [exact N|].
  unfold rat_of_i64, i64_abs, as_rat, i64_signum. rewrite ovf_i64_in by (unfold two63 in *; lia). cbn [bind]. rewrite cast_u64_in by (unfold two63, two64 in *; lia). reflexivity.
Qed.
Lemma inv_range v : val_inv v -> 0 <= rnum (as_rat v) /\ 0 <= rden (as_rat v).
Proof. destruct v as [i|r|f]; cbn [val_inv as_rat rnum rden]; [lia| |lia]. intros ((_ & A & B) & _). lia. Qed.
Lemma int_min_iff x i : nval x = Integer i -> (int_min x <-> i = - two63).
Proof. unfold int_min. intros ->. split; congruence. Qed.
Lemma int_min_rat x r : nval x = Rational r -> ~ int_min x.
Proof. unfold int_min. intros ->. discriminate. Qed.

Section Lift.
  Variable f : mode -> rat -> rat -> res rat.
  Variable P : rat -> rat -> Prop.
  Hypothesis F : forall x y, sg3 (rsign x) -> sg3 (rsign y) -> 0 <= rnum x -> 0 <= rden x -> 0 <= rnum y -> 0 <= rden y -> panics_iff (f Debug x y) (P x y).
  Definition conv (v : val) (k : rat -> res val) : res val :=
    match v with Integer i => let* x := rat_of_i64 Debug i in k x | Rational r => k r | Real _ => Panic end.
  Lemma conv_pi v k Q : val_inv v -> (forall g, v <> Real g) -> (v <> Integer (- two63) -> panics_iff (k (as_rat v)) Q) ->
    panics_iff (conv v k) (v = Integer (- two63) \/ Q).
  Proof.
    intros I E H. destruct v as [i|r|g]; [| |exfalso; exact (E g eq_refl)]; cbn [conv as_rat val_inv] in *.
    - destruct (rat_of_dbg i I) as [(-> & ->)|(N & ->)]; cbn [bind].
      + left. auto.
      + assert (Integer i <> Integer (- two63)) as N' by congruence. eapply pi_iff; [exact (H N')|]. tauto.
    - eapply pi_iff; [apply H; discriminate|]. split; [auto|]. intros [A|A]; [discriminate|exact A].
  Qed.
  Lemma lift_pi a b : val_inv a -> val_inv b -> (forall g, a <> Real g) -> (forall g, b <> Real g) ->
    panics_iff (conv a (fun x => conv b (fun y => let* r := f Debug x y in Ok (Rational r))))
      (a = Integer (- two63) \/ b = Integer (- two63) \/ P (as_rat a) (as_rat b)).
  Proof.
    intros Ia Ib Ea Eb. apply conv_pi; auto. intros _. apply conv_pi; auto. intros _. apply pi_bind.
    destruct (inv_range _ Ia), (inv_range _ Ib). apply F; auto using inv_sg3.
  Qed.
End Lift.

Lemma both_dec x y : both_integers x y \/ ~ both_integers x y.
Proof.
  unfold both_integers. destruct (nval x) as [i|r|g]; [destruct (nval y) as [j|q|h]|..]; try (right; intros (? & ? & ? & ?); discriminate). left. eauto.
Qed.
Lemma integer_signed x i : nval x = Integer i -> signed_num x = i.
Proof. intros E. unfold signed_num, sn_sign, num_of, i64_signum. rewrite E. lia. Qed.
Lemma guard_dbg b r : guard Debug b r = r. Proof. reflexivity. Qed.
Lemma xover_num op x y : exact_num x -> exact_num y -> num_ok x -> num_ok y -> sn_is_zero x = false -> sn_is_zero y = false ->
  (xover op (as_rat (nval x)) (as_rat (nval y)) <->
    let p := num_of x * den_of y in let q := num_of y * den_of x in
    2 ^ 64 <= p \/ 2 ^ 64 <= q \/ 2 ^ 64 <= den_of x * den_of y \/
    (p = 2 ^ 63 /\ sn_sign x = -1) \/ (q = 2 ^ 63 /\ sn_sign y = -1) \/
    2 ^ 63 <= Z.abs (op (sn_sign x * as_signed p) (sn_sign y * as_signed q))).
Proof.
  intros Ex Ey Kx Ky Zx Zy. destruct (as_rat_num x Ex Zx Kx) as (_ & D1 & N1 & S1), (as_rat_num y Ey Zy Ky) as (_ & D2 & N2 & S2).
  unfold xover, xsum. rewrite D1, D2, N1, N2, S1, S2. reflexivity.
Qed.
Lemma conv_ops x y : exact_num x -> exact_num y ->
  (~ both_integers x y -> val_add Debug (nval x) (nval y) = conv (nval x) (fun a => conv (nval y) (fun b => let* r := rat_add Debug a b in Ok (Rational r))) /\
    val_sub Debug (nval x) (nval y) = conv (nval x) (fun a => conv (nval y) (fun b => let* r := rat_sub Debug a b in Ok (Rational r))) /\
    (val_is_zero (nval x) = false -> val_is_zero (nval y) = false ->
     val_mul Debug (nval x) (nval y) = conv (nval x) (fun a => conv (nval y) (fun b => let* r := rat_mul Debug a b in Ok (Rational r))))) /\
  (val_is_zero (nval x) = false ->
     val_div Debug (nval x) (nval y) = conv (nval x) (fun a => conv (nval y) (fun b => let* r := rat_div Debug a b in Ok (Rational r)))).
Proof.
  unfold exact_num, both_integers. intros Ex Ey. unfold val_mul, val_div.
  destruct (nval x) as [i|r|g]; [| |exfalso; exact (Ex g eq_refl)]; (destruct (nval y) as [j|q|h]; [| |exfalso; exact (Ey h eq_refl)]);
    (split; [intros B; split; [|split]; [| |intros -> ->]|intros ->]); try reflexivity; exfalso; apply B; eauto.
Qed.
Lemma int_min_val x : nval x = Integer (- two63) <-> int_min x. Proof. reflexivity. Qed.

(** ** C87 *)
Theorem c87_add x y : api_number Debug x -> api_number Debug y -> exact_num x -> exact_num y ->
  sn_is_zero x = false -> sn_is_zero y = false ->
  panics_iff (sn_add Debug x y) (sum_overflows Z.add x y).
Proof.
  intros Ax Ay Ex Ey Zx Zy. apply api_number_ok in Ax, Ay. unfold sn_add. rewrite Zx, Zy, guard_dbg. apply pi_bind.
  destruct (both_dec x y) as [B|B].
  - pose proof B as (i & j & Ei & Ej). rewrite Ei, Ej. cbn [val_add]. apply pi_bind. eapply pi_iff; [apply ovf_i64_pi|].
    unfold sum_overflows. rewrite (integer_signed _ _ Ei), (integer_signed _ _ Ej). tauto.
  - destruct (conv_ops x y Ex Ey) as (C & _). destruct (C B) as (-> & _).
    eapply pi_iff; [apply (lift_pi rat_add (xover Z.add) add_pi); [apply Ax|apply Ay|exact Ex|exact Ey]|].
    rewrite xover_num by assumption. rewrite !int_min_val. unfold sum_overflows. tauto.
Qed.
Print Assumptions c87_add.
Theorem c87_sub x y : api_number Debug x -> api_number Debug y -> exact_num x -> exact_num y ->
  sn_is_zero x = false -> sn_is_zero y = false ->
  panics_iff (sn_sub Debug x y) (sum_overflows Z.sub x y).
Proof.
  intros Ax Ay Ex Ey Zx Zy. apply api_number_ok in Ax, Ay. unfold sn_sub. rewrite Zx, Zy, guard_dbg. apply pi_bind.
  destruct (both_dec x y) as [B|B].
  - pose proof B as (i & j & Ei & Ej). rewrite Ei, Ej. cbn [val_sub]. apply pi_bind. eapply pi_iff; [apply ovf_i64_pi|].
    unfold sum_overflows. rewrite (integer_signed _ _ Ei), (integer_signed _ _ Ej). tauto.
  - destruct (conv_ops x y Ex Ey) as (C & _). destruct (C B) as (_ & -> & _).
    eapply pi_iff; [apply (lift_pi rat_sub (xover Z.sub) sub_pi); [apply Ax|apply Ay|exact Ex|exact Ey]|].
    rewrite xover_num by assumption. rewrite !int_min_val. unfold sum_overflows. tauto.
Qed.
Print Assumptions c87_sub.
Theorem c87_mul x y : api_number Debug x -> api_number Debug y -> exact_num x -> exact_num y ->
  sn_is_zero x = false -> sn_is_zero y = false -> sn_is_one x = false -> sn_is_one y = false ->
  panics_iff (sn_mul Debug x y) (product_overflows x y).
Proof.
  intros Ax Ay Ex Ey Zx Zy Ox Oy. apply api_number_ok in Ax, Ay. unfold sn_mul. rewrite Ox, Oy, guard_dbg. apply pi_bind.
  pose proof Zx as Vx. pose proof Zy as Vy. rewrite tag_zero in Vx, Vy by assumption.
  destruct (both_dec x y) as [B|B].
  - pose proof B as (i & j & Ei & Ej). unfold val_mul. rewrite Vx, Vy. cbn [orb]. rewrite Ei, Ej. apply pi_bind. eapply pi_iff; [apply ovf_i64_pi|].
    unfold product_overflows. rewrite (integer_signed _ _ Ei), (integer_signed _ _ Ej). tauto.
  - destruct (conv_ops x y Ex Ey) as (C & _). destruct (C B) as (_ & _ & M). rewrite (M Vx Vy).
    eapply pi_iff.
    + apply (lift_pi rat_mul (fun a b => 2 ^ 64 <= rnum a * rnum b \/ 2 ^ 64 <= rden a * rden b)); [|apply Ax|apply Ay|exact Ex|exact Ey].
      intros a b S1 S2 N1 D1 N2 D2. apply mk_pi; auto; nia.
    + destruct (as_rat_num x Ex Zx Ax) as (_ & D1 & N1 & _), (as_rat_num y Ey Zy Ay) as (_ & D2 & N2 & _).
      cbv beta. rewrite D1, D2, N1, N2, !int_min_val. unfold product_overflows. tauto.
Qed.
Print Assumptions c87_mul.
Theorem c87_div x y : api_number Debug x -> api_number Debug y -> exact_num x -> exact_num y ->
  sn_is_zero x = false ->
  panics_iff (sn_div Debug x y) (quotient_overflows x y).
Proof.
  intros Ax Ay Ex Ey Zx. apply api_number_ok in Ax, Ay. unfold sn_div. rewrite guard_dbg. apply pi_bind.
  pose proof Zx as Vx. rewrite tag_zero in Vx by assumption.
  destruct (conv_ops x y Ex Ey) as (_ & D). rewrite (D Vx).
  eapply pi_iff.
  - apply (lift_pi rat_div (fun a b => 2 ^ 64 <= rnum a * rden b \/ 2 ^ 64 <= rden a * rnum b)); [|apply Ax|apply Ay|exact Ex|exact Ey].
    intros a b S1 S2 N1 D1 N2 D2. apply mk_pi; auto; nia.
  - destruct (as_rat_num x Ex Zx Ax) as (_ & D1 & N1 & _).
    assert (rnum (as_rat (nval y)) = num_of y /\ rden (as_rat (nval y)) = den_of y) as (N2 & D2).
    { unfold num_of, den_of, as_rat. destruct (nval y) as [j|q|h] eqn:E; auto. exfalso. exact (Ey h E). }
    cbv beta. rewrite D1, D2, N1, N2, !int_min_val. unfold quotient_overflows. tauto.
Qed.
Print Assumptions c87_div.
(** the shortcuts of 0 and 1 never panic, except 0 - i64::MIN; negation panics for i64::MIN only *)
Theorem c87_shortcuts x y : api_number Debug x -> api_number Debug y ->
  (sn_is_zero x = true \/ sn_is_zero y = true -> exists z, sn_add Debug x y = Ok z) /\
  (sn_is_zero x = true \/ sn_is_zero y = true \/ sn_is_one x = true \/ sn_is_one y = true -> exists z, sn_mul Debug x y = Ok z) /\
  (sn_is_zero x = true -> exists z, sn_div Debug x y = Ok z) /\
  (sn_is_zero x = false -> sn_is_zero y = true -> exists z, sn_sub Debug x y = Ok z) /\
  (sn_is_zero x = true -> panics_iff (sn_sub Debug x y) (int_min y)) /\
  panics_iff (sn_neg Debug x) (int_min x).
Proof.
  intros Ax Ay. pose proof (api_number_ok _ _ Ax) as Kx. pose proof (api_number_ok _ _ Ay) as Ky.
  assert (forall u, num_ok u -> panics_iff (sn_neg Debug u) (int_min u)) as NEG.
  { intros u (I & _). unfold sn_neg. rewrite guard_dbg. apply pi_bind. unfold int_min. destruct (nval u) as [i|r|g]; cbn [val_neg val_inv] in *.
    - apply pi_bind. eapply pi_iff; [apply ovf_i64_pi|]. apply in_i64_iff in I. unfold outside_i64, two63 in *.
      split; [intros; f_equal; lia|intros E; injection E; lia].
    - right. split; [|discriminate]. unfold rat_neg, i64_neg.
      rewrite ovf_i64_in by (destruct I as (([-> | [-> | (-> & _)]] & _) & _); unfold two63; lia). eexists. reflexivity.
    - right. split; [eexists; reflexivity|discriminate]. }
  split; [|split; [|split; [|split; [|split]]]].
  - intros H. unfold sn_add. destruct (sn_is_zero x); [eauto|]. destruct H as [H|H]; [discriminate|]. rewrite H. eauto.
  - intros H. unfold sn_mul. destruct (sn_is_one x) eqn:Ox; [eauto|]. destruct (sn_is_one y) eqn:Oy; [eauto|]. rewrite guard_dbg. unfold val_mul.
    rewrite <- !tag_zero by assumption. assert (sn_is_zero x || sn_is_zero y = true) as ->; [|eexists; reflexivity].
    destruct H as [-> | [-> | [H|H]]]; [reflexivity|apply orb_true_r|discriminate|discriminate].
  - intros H. unfold sn_div. rewrite guard_dbg. unfold val_div. rewrite <- tag_zero, H by assumption. eexists. reflexivity.
  - intros H G. unfold sn_sub. rewrite H, G. eauto.
  - intros H. unfold sn_sub. rewrite H. auto.
  - auto.
Qed.
Print Assumptions c87_shortcuts.

(** Witness: 1/3 + 2^61/7 returns; i64::MIN * (1/2) panics although the product fits i64. *)
Example c87_witness : exists x y h i, sn_new_rational Debug 1 1 3 = Ok (Some x) /\ sn_new_rational Debug 1 (2 ^ 61) 7 = Ok (Some y) /\
  sn_new_rational Debug 1 1 2 = Ok (Some h) /\ i = sn_of_i64 (- 2 ^ 63) /\
  exact_num x /\ exact_num y /\ sn_is_zero x = false /\ sn_is_zero y = false /\
  (exists z, sn_add Debug x y = Ok z) /\ ~ sum_overflows Z.add x y /\
  sn_mul Debug i h = Panic /\ product_overflows i h.
Proof.
  do 4 eexists. split; [vm_compute; reflexivity|]. split; [vm_compute; reflexivity|]. split; [vm_compute; reflexivity|]. split; [reflexivity|].
  split; [intros f; discriminate|]. split; [intros f; discriminate|]. split; [reflexivity|]. split; [reflexivity|].
  split; [eexists; vm_compute; reflexivity|]. split; [|split; [vm_compute; reflexivity|]].
  - unfold sum_overflows, int_min. intros [((i & j & E & _) & _)|(_ & H)]; [discriminate|]. destruct H as [H|[H|H]]; [discriminate|discriminate|].
    vm_compute in H. intuition discriminate.
  - right. split; [intros (i & j & _ & E); discriminate|]. left. reflexivity.
Qed.
