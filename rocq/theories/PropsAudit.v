(** * PropsAudit: what x/0 does when it is used as a dividend or a divisor (C11) *)
From Coq Require Import ZArith QArith List String Bool Lia.
From Verif Require Import Base Float Rational SmartNum Spec BaseProofs RationalProofs NumProofs NumProofs2.
Import ListNotations.
Open Scope Z_scope.
Open Scope res_scope.

Lemma rat_div_den0l m x y z : rat_div m x y = Ok z -> rden x = 0 -> rden z = 0.
Proof.
  unfold rat_div, i64_mul, u64_mul. intros H E. do 3 inv_bind H. rewrite E, Z.mul_0_l in Hb1.
  rewrite ovf_u64_in in Hb1 by (unfold two64; lia). injection Hb1 as <-. injection H as <-.
  apply reduce_den0. apply ovf_u64_ok in Hb0. lia.
Qed.

Lemma rat_div_by_den0 m x y z : rat_div m x y = Ok z -> rden y = 0 -> rden x <> 0 -> rnum y <> 0 ->
  0 <= rden x -> 0 <= rnum y -> rden x * rnum y < two64 -> rnum z = 0 /\ rden z <> 0.
Proof.
  unfold rat_div, i64_mul, u64_mul. intros H E Dx Ny Px Py B. do 3 inv_bind H. rewrite E, Z.mul_0_r in Hb0.
  rewrite ovf_u64_in in Hb0 by (unfold two64; lia). injection Hb0 as <-.
  rewrite ovf_u64_in in Hb1 by nia. injection Hb1 as <-. injection H as <-.
  destruct (reduce_bounds (mkRat a 0 (rden x * rnum y))) as (_ & B1 & B2 & X1 & X2);
    cbn [rnum rden] in *; try nia.
Qed.

(** dividing x/0 by any exact number leaves it undefined *)
Theorem c11_undefined_divided m mode x y z : api_number m x -> api_number m y -> exact_num y ->
  undefined_fraction x -> sn_div mode x y = Ok z -> undefined_fraction z.
Proof.
  intros Hx Hy Ey Hu H. apply api_number_ok in Hx, Hy.
  pose proof (proj1 (undefined_not_tagged x Hx Hu)) as Zx. rewrite is_zero_val in Zx by assumption.
  unfold sn_div in H. inv_all H. apply guard_ok in Hb as [Hb _]. unfold val_div in Hb. rewrite Zx in Hb.
  destruct Hu as (r & E & D). rewrite E in Hb.
  destruct (nval y) as [j|j|j] eqn:Y; [| |exfalso; eapply Ey; eauto]; inv_all Hb; apply wrap_undefined;
    eapply rat_div_den0l; eassumption.
Qed.
Print Assumptions c11_undefined_divided.

(** dividing a nonzero defined exact number by n/0 silently gives the exact 0 *)
Theorem c11_divided_by_undefined m mode x y z : api_number m x -> api_number m y -> exact_num x ->
  ~ undefined_fraction x -> sn_is_zero x = false ->
  undefined_fraction y -> num_of y <> 0 -> den_of x * num_of y < two64 ->
  sn_div mode x y = Ok z -> z = sn_zero.
Proof.
  intros Hx Hy Ex Ux Zx (r & E & D) Ny B H. apply api_number_ok in Hx, Hy.
  rewrite is_zero_val in Zx by assumption. destruct Hx as [Hx _], Hy as [Hy _].
  unfold sn_div in H. inv_all H. apply guard_ok in Hb as [Hb _]. unfold val_div in Hb. rewrite Zx in Hb.
  unfold num_of, den_of in *. rewrite E in *.
  assert (W : forall q, rnum q = 0 -> rden q <> 0 -> wrap_val (Rational q) = sn_zero).
  { intros q N Dq. unfold wrap_val. cbn [val_is_zero]. rewrite N, Z.eqb_refl.
    destruct (Z.eqb_spec (rden q) 0); [contradiction|]. reflexivity. }
  cbn [val_inv rat_inv] in Hy. destruct Hy as ((_ & Hn & _) & _).
  destruct (nval x) as [i|i|i] eqn:X; [| |exfalso; eapply Ex; eauto]; inv_all Hb.
  - apply rat_of_i64_full in Hb0 as (Inv & D1 & N1); [|exact Hx].
    destruct (rat_div_by_den0 _ _ _ _ Hb1 D) as [A1 A2]; try lia. apply W; assumption.
  - assert (Di : rden i <> 0) by (intros Di; apply Ux; exists i; split; assumption).
    destruct Hx as ((_ & _ & Hd) & _).
    destruct (rat_div_by_den0 _ _ _ _ Hb0 D) as [A1 A2]; try lia. apply W; assumption.
Qed.
Print Assumptions c11_divided_by_undefined.

(** 5 / (3 / 0) is the exact 0, (3 / 0) / (3 / 0) and (3 / 0) / 5 are undefined *)
Example c11_undefined_example :
  let u := sn_div Debug (sn_of_i64 3) (sn_of_i64 0) in
  (let* u := u in sn_div Debug (sn_of_i64 5) u) = Ok sn_zero /\
  (exists z, (let* u := u in sn_div Debug u u) = Ok z /\ undefined_fraction z) /\
  (exists z, (let* u := u in sn_div Debug u (sn_of_i64 5)) = Ok z /\ undefined_fraction z).
Proof.
  split; [vm_compute; reflexivity|].
  split; eexists; (split; [vm_compute; reflexivity|]); eexists; split; reflexivity.
Qed.
