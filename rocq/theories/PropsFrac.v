(** * PropsFrac: when fraction arithmetic loses nothing, constant by constant (C84) *)
From Coq Require Import ZArith QArith Qreals Qfield List String Bool Lia Lra Znumtheory Reals FunctionalExtensionality.
From Coquelicot Require Import Coquelicot.
From Verif Require Import Base Float Rational SmartNum Ast Compute Spec SpecTree SpecR SpecExact SpecHeight SpecFrac.
From Verif Require Import BaseProofs RationalProofs NumProofs NumProofs2 TreeProofs TreeProofs2 TreeProofs3 TreeProofs4 RealProofs RealDeriv RealDeriv2 GradProofs.
From Verif Require Import ExactProofs IntProofs PropsNum PropsTree PropsReal PropsRing PropsStd PropsLH PropsInt PropsHeight.
Import ListNotations.
Open Scope Z_scope.

(** ** results of fraction arithmetic are in lowest terms *)
Definition redr (r : rat) : Prop := exists w, r = rat_reduce w /\ 0 <= rnum w /\ 0 <= rden w.
Definition redv (v : val) : Prop := match v with Integer _ => True | Rational r => redr r | Real _ => False end.

Lemma ovf_u64_S z w : ovf_u64 Strict z = Ok w -> 0 <= w.
Proof. unfold ovf_u64. destruct (in_u64 z) eqn:I; [|discriminate]. intros [= <-]. apply in_u64_iff in I. lia. Qed.
Lemma cast_u64_S z w : cast_u64 Strict z = Ok w -> 0 <= w.
Proof. unfold cast_u64. destruct (in_u64 z) eqn:I; [|discriminate]. intros [= <-]. apply in_u64_iff in I. lia. Qed.
Lemma finish_red s d1 d2 z : rat_finish Strict s d1 d2 = Ok z -> redr z.
Proof.
  unfold rat_finish. intros H. apply bind_ok in H as (a & _ & H). apply bind_ok in H as (n & N & H). apply bind_ok in H as (d & D & H).
  injection H as <-. eexists. split; [reflexivity|]. cbn [rnum rden]. split; [exact (cast_u64_S _ _ N)|exact (ovf_u64_S _ _ D)].
Qed.
Lemma rat_add_red x y z : rat_add Strict x y = Ok z -> redr z.
Proof. unfold rat_add. intros H. do 3 (apply bind_ok in H as (? & _ & H)). exact (finish_red _ _ _ _ H). Qed.
Lemma rat_sub_red x y z : rat_sub Strict x y = Ok z -> redr z.
Proof. unfold rat_sub. intros H. do 3 (apply bind_ok in H as (? & _ & H)). exact (finish_red _ _ _ _ H). Qed.
Lemma rat_mul_red x y z : rat_mul Strict x y = Ok z -> redr z.
Proof.
  unfold rat_mul. intros H. apply bind_ok in H as (s & _ & H). apply bind_ok in H as (n & N & H). apply bind_ok in H as (d & D & H).
  injection H as <-. eexists. split; [reflexivity|]. split; [exact (ovf_u64_S _ _ N)|exact (ovf_u64_S _ _ D)].
Qed.
Lemma rat_div_red x y z : rat_div Strict x y = Ok z -> redr z.
Proof.
  unfold rat_div. intros H. apply bind_ok in H as (s & _ & H). apply bind_ok in H as (n & N & H). apply bind_ok in H as (d & D & H).
  injection H as <-. eexists. split; [reflexivity|]. split; [exact (ovf_u64_S _ _ N)|exact (ovf_u64_S _ _ D)].
Qed.

Ltac redtac L := repeat match goal with
  | H : bind _ _ = Ok _ |- _ => apply bind_ok in H as (? & ? & H)
  | H : Ok _ = Ok _ |- _ => injection H as <-
  end; cbn [redv]; try exact I; eapply L; eassumption.
Definition exv (v : val) : Prop := match v with Real _ => False | _ => True end.
Lemma val_add_red a b z : exv a -> exv b -> val_add Strict a b = Ok z -> redv z.
Proof. destruct a, b; try contradiction; intros _ _; cbn [val_add]; intros H; redtac rat_add_red. Qed.
Lemma val_sub_red a b z : exv a -> exv b -> val_sub Strict a b = Ok z -> redv z.
Proof. destruct a, b; try contradiction; intros _ _; cbn [val_sub]; intros H; redtac rat_sub_red. Qed.
Lemma val_mul_red a b z : exv a -> exv b -> val_mul Strict a b = Ok z -> redv z.
Proof.
  unfold val_mul. destruct (val_is_zero a || val_is_zero b); [intros _ _ [= <-]; exact I|].
  destruct a, b; try contradiction; intros _ _ H; redtac rat_mul_red.
Qed.
Lemma val_div_red a b z : exv a -> exv b -> val_div Strict a b = Ok z -> redv z.
Proof.
  unfold val_div. destruct (val_is_zero a); [intros _ _ [= <-]; exact I|].
  destruct a, b; try contradiction; intros _ _ H; redtac rat_div_red.
Qed.
Lemma wrap_red v : redv v -> redv (nval (wrap_val v)).
Proof. intros R. unfold wrap_val. destruct (val_is_zero v); [exact I|]. destruct (val_is_one v); [exact I|exact R]. Qed.

Definition BB : Z := 2 ^ 31 - 1.
Lemma nbd_exv x h : nbd x h -> exv (nval x).
Proof. intros (_ & _ & B). destruct (nval x); cbn; auto. Qed.

Lemma op_small t x y : t = OAdd \/ t = OSub \/ t = OMul \/ t = ODiv -> nbd x BB -> nbd y BB ->
  (t = ODiv -> val_is_zero (nval y) = false) ->
  exists z, sn_op Strict t x y = Ok z /\ nbd z (2 * (BB * BB)) /\ (nbd z BB \/ redv (nval z)).
Proof.
  intros T X Y N. assert (BB * BB <= 2 * (BB * BB)) as LE by (vm_compute; discriminate).
  assert (BB <= 2 * (BB * BB)) as LB by (vm_compute; discriminate). pose proof (nbd_exv x _ X) as Ex. pose proof (nbd_exv y _ Y) as Ey.
  destruct T as [-> | [-> | [-> | ->]]]; cbn [sn_op].
  - destruct (sn_add_bd x y BB BB X Y eq_refl) as (z & Z & B). exists z. split; [exact Z|]. split; [exact B|].
    unfold sn_add in Z. destruct (sn_is_zero x); [injection Z as <-; auto|]. destruct (sn_is_zero y); [injection Z as <-; auto|].
    right. rewrite (nbd_approx x _ X), (nbd_approx y _ Y) in Z. cbn [orb] in Z. rewrite guard_false in Z.
    apply bind_ok in Z as (v & V & Z). injection Z as <-. apply wrap_red. exact (val_add_red _ _ _ Ex Ey V).
  - destruct (sn_sub_bd x y BB BB X Y eq_refl) as (z & Z & B). exists z. split; [exact Z|]. split; [exact B|].
    unfold sn_sub in Z. destruct (sn_is_zero x).
    { left. destruct (sn_neg_bd y BB Y eq_refl) as (z' & Z' & B'). rewrite Z' in Z. injection Z as <-. exact B'. }
    destruct (sn_is_zero y); [injection Z as <-; auto|].
    right. rewrite (nbd_approx x _ X), (nbd_approx y _ Y) in Z. cbn [orb] in Z. rewrite guard_false in Z.
    apply bind_ok in Z as (v & V & Z). injection Z as <-. apply wrap_red. exact (val_sub_red _ _ _ Ex Ey V).
  - destruct (sn_mul_bd x y BB BB X Y eq_refl) as (z & Z & B). exists z. split; [exact Z|]. split; [exact (nbd_le _ _ _ B LE)|].
    unfold sn_mul in Z. destruct (sn_is_one x); [injection Z as <-; auto|]. destruct (sn_is_one y); [injection Z as <-; auto|].
    right. rewrite (nbd_approx x _ X), (nbd_approx y _ Y) in Z. cbn [orb andb] in Z. rewrite guard_false in Z.
    apply bind_ok in Z as (v & V & Z). injection Z as <-. apply wrap_red. exact (val_mul_red _ _ _ Ex Ey V).
  - destruct (sn_div_bd x y BB BB X Y (N eq_refl) eq_refl) as (z & Z & B). exists z. split; [exact Z|]. split; [exact (nbd_le _ _ _ B LE)|].
    unfold sn_div in Z. right. rewrite (nbd_approx x _ X), (nbd_approx y _ Y) in Z. cbn [orb andb] in Z. rewrite guard_false in Z.
    apply bind_ok in Z as (v & V & Z). injection Z as <-. apply wrap_red. exact (val_div_red _ _ _ Ex Ey V).
Qed.

(** a number in lowest terms is small if its value is *)
Lemma red_small z h q : nbd z h -> redv (nval z) -> exact_Q z = Some q -> small_fraction q -> nbd z BB.
Proof.
  intros (O & G & B) R Q (p & d & P & D & E). split; [exact O|]. split; [vm_compute; discriminate|].
  unfold exact_Q in Q. destruct (nval z) as [i|r|f]; [| |contradiction].
  - cbn [val_Q] in Q. injection Q as <-. unfold Qeq, Qdiv, Qmult, Qinv, inject_Z in E. cbn in E.
    destruct d as [|d|d]; try lia. cbn in E. unfold BB. assert (i * Z.pos d = p) as <- by lia. rewrite Z.abs_mul in P. nia.
  - cbn [val_Q redv] in *. destruct B as (S & N & D'). destruct (Z.eqb_spec (rden r) 0); [lia|]. injection Q as <-.
    destruct R as (w & -> & Nw & Dw). destruct (reduce_bounds w Nw Dw) as (_ & _ & _ & _ & Z0).
    assert (lowest_terms (rat_reduce w)) as L by (apply reduce_lowest; [lia|lia|right; intros K; apply Z0 in K; lia]).
    set (r := rat_reduce w) in *. unfold lowest_terms in L. unfold rbd. split; [exact S|].
    assert (rsign r * rnum r * d = p * rden r) as EE.
    { clear - E D D'. destruct d as [|d|d]; try lia. unfold ratQ, Qeq, Qdiv, Qmult, Qinv, inject_Z in E. cbn [Qnum Qden] in E.
      rewrite Z2Pos.id in E by lia. rewrite Pos.mul_1_l, !Z.mul_1_r in E. exact E. }
    assert (rnum r * d = Z.abs p * rden r) as EA.
    { assert (Z.abs (rsign r * rnum r * d) = Z.abs (p * rden r)) as K by (rewrite EE; reflexivity). rewrite !Z.abs_mul in K.
      rewrite (Z.abs_eq (rnum r)), (Z.abs_eq d), (Z.abs_eq (rden r)) in K by lia.
      destruct S as [S | [S | (S & S0)]]; rewrite S in K; cbn [Z.abs] in K; [lia|lia|]. rewrite S0 in *. lia. }
    assert (rden r | d) as DV.
    { apply (Gauss (rden r) (rnum r) d); [exists (Z.abs p); lia|]. apply Zgcd_1_rel_prime. rewrite Z.gcd_comm. exact L. }
    apply Z.divide_pos_le in DV; [|lia]. unfold BB. nia.
Qed.

(** ** all numbers in a tree *)
Definition lits (e : expr) : Prop := forall n c, subterm (Expr (Operand (Num n)) c) e -> nbd n BB.
Lemma lits_num n : nbd n BB -> lits (e_num n).
Proof. intros B k c H. apply subterm_num in H. injection H as -> _. exact B. Qed.
Lemma lits_mk1 t a : lits (mk1 t a) <-> lits a.
Proof.
  split; intros H k c Hs; [apply (H k c); exact (subterm_trans _ _ _ Hs (sub_mk1 t a))|]. apply subterm_mk1 in Hs as [[=]|Hs]. exact (H k c Hs).
Qed.
Lemma lits_mk2 t a b : lits (mk2 t a b) <-> lits a /\ lits b.
Proof.
  split; [intros H; split; intros k c Hs; apply (H k c); [exact (subterm_trans _ _ _ Hs (sub_mk2_l t a b))|exact (subterm_trans _ _ _ Hs (sub_mk2_r t a b))]|].
  intros (A & B) k c Hs. apply subterm_mk2 in Hs as [[=]|[Hs|Hs]]; [exact (A k c Hs)|exact (B k c Hs)].
Qed.
Lemma lits_last op k c : lits (Expr op (k ++ [c])) -> lits c.
Proof. intros H n r Hs. apply (H n r). apply sub_child with c; [apply in_or_app; right; left; reflexivity|exact Hs]. Qed.
Lemma lits_root n k : lits (Expr (Operand (Num n)) k) -> nbd n BB.
Proof. intros H. exact (H n k (sub_refl _)). Qed.
Lemma lits_zero : lits e_zero. Proof. apply lits_num. split; [split; reflexivity|]. split; vm_compute; discriminate. Qed.
Lemma lits_one : lits e_one. Proof. apply lits_num. split; [split; reflexivity|]. split; vm_compute; discriminate. Qed.
Lemma lits_pi a : lits a -> is_pi a = false /\ is_e a = false.
Proof.
  intros L. destruct a as [[op|[n|y]] k]; [auto| |auto]. pose proof (nbd_approx n _ (lits_root n k L)) as A. unfold approx in A.
  apply orb_false_iff in A as (A1 & A2). auto.
Qed.

Lemma nbd_self' n q : num_ok n -> exact_Q n = Some q -> nbd n (height_num n).
Proof.
  intros O Q. split; [exact O|]. unfold height_num. split; [lia|].
  destruct O as (I & _). unfold num_of, den_of, exact_Q in *. destruct (nval n) as [i|r|f]; [lia| |discriminate Q].
  destruct I as ((S & N & D) & _). cbn [val_Q] in Q. destruct (Z.eqb_spec (rden r) 0); [discriminate|]. split; [exact S|]. lia.
Qed.
Lemma fe_wf e : frac_expr e -> wf e.
Proof.
  induction 1; [apply wf_num', H|apply wf_var|..];
    first [apply wf_mk1; [reflexivity|assumption]|apply wf_mk2; [reflexivity|assumption..]].
Qed.
Lemma fe_lits e : frac_expr e -> lits e.
Proof.
  induction 1; [|intros n c H; apply subterm_var in H; discriminate|..].
  - apply lits_num. apply (nbd_le _ _ _ (nbd_self' n q H H0)). unfold BB. lia.
  - apply (lits_mk1 ONeg). assumption.
  - apply (lits_mk1 OSin). assumption.
  - apply (lits_mk1 OCos). assumption.
  - apply (lits_mk1 OLn). assumption.
  - apply (lits_mk2 OAdd). split; assumption.
  - apply (lits_mk2 OSub). split; assumption.
  - apply (lits_mk2 OMul). split; assumption.
  - apply (lits_mk2 ODiv). split; assumption.
Qed.
Lemma fe_no_pow e : frac_expr e -> ~ has_op OPow e.
Proof.
  assert (forall y, ~ has_op OPow (e_var y)) as V by (intros y (op & c & D & S); apply subterm_var in S; discriminate S).
  induction 1; [apply hop_num|apply V|..]; first [apply hop_mk1; [assumption|discriminate]|apply hop_mk2; [assumption|assumption|discriminate]].
Qed.
Lemma lits_no_pi e : lits e -> ~ has_pi e.
Proof.
  intros L (n & k & P & S). pose proof (nbd_approx n _ (L n k S)) as A. unfold approx in A. rewrite P in A. discriminate A.
Qed.
Lemma avoids_sub e s : avoids_bad_rules e -> subterm s e -> avoids_bad_rules s.
Proof.
  intros (A & B) S. split; [intros a b a' H; exact (A a b a' (subterm_trans _ _ _ H S))|intros a a' H; exact (B a a' (subterm_trans _ _ _ H S))].
Qed.
Lemma wf_sub e s : wf e -> subterm s e -> wf s.
Proof.
  intros W. revert s. pattern e. revert e W. apply wf_ind1.
  - intros n O s S. apply subterm_num in S as ->. apply wf_num', O.
  - intros x s S. apply subterm_var in S as ->. apply wf_var.
  - intros t a A W IH s S. apply subterm_mk1 in S as [-> |S]; [apply wf_mk1; assumption|exact (IH s S)].
  - intros t a b A Wa Wb IHa IHb s S. apply subterm_mk2 in S as [-> |[S|S]]; [apply wf_mk2; assumption|exact (IHa s S)|exact (IHb s S)].
Qed.
Lemma fe_avoids e : frac_expr e -> avoids_bad_rules e.
Proof.
  intros F. split.
  - intros a b a' S. exfalso. apply (fe_no_pow e F). exists (gen_op OPow), [a; b]. split; [reflexivity|exact S].
  - intros a a' S E. destruct (is_pi a') eqn:P; [exfalso|reflexivity].
    assert (subterm a e) as Sa by exact (subterm_trans _ _ _ (sub_mk1 OCos a) S).
    apply (lits_no_pi e (fe_lits e F)). apply (has_pi_sub e a); [|exact Sa].
    apply (agg_pi Strict a (wf_sub e a (fe_wf e F) Sa) a' E). destruct a' as [[op|[n|y]] k]; try discriminate P.
    exists n, k. split; [exact P|apply sub_refl].
Qed.

Lemma rule1_frac t a : t = ONeg \/ t = OSin \/ t = OCos \/ t = OLn -> wf a -> lits a -> ~ has_op OExp a ->
  exists z, eval_rule Strict t [Ok a] = Ok z /\ lits z.
Proof.
  intros T W L X.
  assert (exists z, eval_rule Strict t [Ok a] = Ok z) as (z & E).
  { destruct T as [-> | [-> | [-> | ->]]].
    - destruct a as [[op|[n|y]] k].
      + destruct (descriptor op) eqn:D; try (eexists; cbn; rewrite D; reflexivity).
        destruct (wf_op_inv _ _ W) as (_ & [(_ & c & -> & _)|(H & _)]); [eexists; cbn; rewrite D; reflexivity|]. rewrite D in H. discriminate H.
      + destruct (sn_neg_bd n BB (lits_root n k L) eq_refl) as (z & Z & _). cbn -[sn_neg]. rewrite Z. eexists; reflexivity.
      + eexists; reflexivity.
    - cbn [eval_rule]. unfold sin_eval_rule. cbn [pop_unwrap pop rev app bind]. destruct (root a); [eexists; reflexivity|].
      destruct (od_is_zero o || od_is_pi o); eexists; reflexivity.
    - cbn [eval_rule]. unfold cos_eval_rule. cbn [pop_unwrap pop rev app bind]. destruct (root a); [eexists; reflexivity|].
      destruct (od_is_zero o || od_is_pi o); eexists; reflexivity.
    - cbn [eval_rule]. unfold ln_eval_rule. cbn [pop_unwrap pop rev app bind]. destruct (root a) as [op|[n|y]] eqn:Ra.
      + destruct (descriptor op) eqn:D; try (eexists; reflexivity). exfalso. apply X. destruct a as [r k]. cbn in Ra. subst r.
        exists op, k. split; [exact D|apply sub_refl].
      + destruct (sn_is_e n); [eexists; reflexivity|]. destruct (sn_is_one n); eexists; reflexivity.
      + eexists; reflexivity. }
  exists z. split; [exact E|]. apply rule1_ar in E; [|destruct T as [-> | [-> | [-> | ->]]]; reflexivity].
  destruct E; try apply lits_zero; try apply lits_one; try (apply lits_mk1; assumption); try (apply lits_last in L; assumption);
    try (intuition discriminate).
  destruct (sn_neg_bd n BB (lits_root n k L) eq_refl) as (w & Z & B). rewrite Z in H. injection H as <-. apply lits_num, B.
Qed.

(** the rules for two operands: return, and keep the numbers small if a number that comes out is small *)
Lemma rule2_frac t a b : t = OAdd \/ t = OSub \/ t = OMul \/ t = ODiv -> lits a -> lits b ->
  (forall n k, t = ODiv -> b = Expr (Operand (Num n)) k -> val_is_zero (nval n) = false) ->
  exists z, eval_rule Strict t [Ok a; Ok b] = Ok z /\
    (lits z \/ exists n, z = e_num n /\ nbd n (2 * (BB * BB)) /\ redv (nval n)).
Proof.
  intros T La Lb N. destruct (is_num a && is_num b) eqn:NN.
  - pose proof NN as NN'. apply andb_true_iff in NN as (Na & Nb). apply is_num_inv in Na as (x & k & ->). apply is_num_inv in Nb as (y & k' & ->).
    destruct (op_small t x y T (lits_root _ _ La) (lits_root _ _ Lb) (fun D => N y k' D eq_refl)) as (z & Z & B & R).
    exists (e_num z). split.
    + destruct T as [-> | [-> | [-> | ->]]]; cbn [sn_op] in Z; cbn -[sn_add sn_sub sn_mul sn_div]; rewrite Z; reflexivity.
    + destruct R as [R|R]; [left; apply lits_num, R|right]. exists z. auto.
  - assert (exists z, eval_rule Strict t [Ok a; Ok b] = Ok z) as (z & E).
    { destruct T as [-> | [-> | [-> | ->]]]; cbn [eval_rule]; unfold add_eval_rule, sub_eval_rule, mul_eval_rule, div_eval_rule;
        cbn [eval2 pop_unwrap pop rev app bind]; rewrite NN;
        repeat match goal with |- context [if ?c then _ else _] => destruct c; try (eexists; reflexivity) end. }
    exists z. split; [exact E|left]. apply rule2_ar in E; [|destruct T as [-> | [-> | [-> | ->]]]; reflexivity].
    destruct E; try assumption; try apply lits_zero; try apply lits_one; try (apply lits_mk2; split; assumption);
      try (apply lits_mk1; assumption); try (apply lits_last in La; assumption); try (intuition discriminate).
Qed.

Lemma agg_frac (Dm : (string -> R) -> Prop) e : frac_expr e -> small_constants Dm e ->
  forall rho v, eval rho e = Some v -> exists z, num_aggregate Strict e = Ok z /\ lits z.
Proof.
  intros F. pose proof (fe_wf e F) as W0. pose proof (fe_avoids e F) as A0.
  assert (forall t a, t = ONeg \/ t = OSin \/ t = OCos \/ t = OLn -> frac_expr a ->
    (small_constants Dm a -> forall rho v, eval rho a = Some v -> exists z, num_aggregate Strict a = Ok z /\ lits z) ->
    small_constants Dm (mk1 t a) ->
    forall rho v, eval rho (mk1 t a) = Some v -> exists z, num_aggregate Strict (mk1 t a) = Ok z /\ lits z) as U.
  { intros t a T Fa IH K rho v V. rewrite eval_mk1 in V. destruct (eval rho a) as [va|] eqn:Va; [|discriminate].
    destruct (IH (fun s q S => K s q (subterm_trans _ _ _ S (sub_mk1 t a))) rho va Va) as (a' & Ea & La).
    rewrite agg_mk1 by (destruct T as [-> | [-> | [-> | ->]]]; reflexivity). rewrite Ea. cbn [bind].
    apply rule1_frac; [exact T|exact (agg_wf _ _ _ (fe_wf a Fa) Ea)|exact La|].
    apply (hop_agg Strict a a'); [|exact Ea]. clear -Fa.
    assert (forall y, ~ has_op OExp (e_var y)) as Vv by (intros y (op & c & D & S); apply subterm_var in S; discriminate S).
    induction Fa; [apply hop_num|apply Vv|..]; first [apply hop_mk1; [assumption|discriminate]|apply hop_mk2; [assumption|assumption|discriminate]]. }
  assert (forall t a b, t = OAdd \/ t = OSub \/ t = OMul \/ t = ODiv -> frac_expr a -> frac_expr b -> frac_expr (mk2 t a b) ->
    (small_constants Dm a -> forall rho v, eval rho a = Some v -> exists z, num_aggregate Strict a = Ok z /\ lits z) ->
    (small_constants Dm b -> forall rho v, eval rho b = Some v -> exists z, num_aggregate Strict b = Ok z /\ lits z) ->
    small_constants Dm (mk2 t a b) ->
    forall rho v, eval rho (mk2 t a b) = Some v -> exists z, num_aggregate Strict (mk2 t a b) = Ok z /\ lits z) as B.
  { intros t a b T Fa Fb Fe IHa IHb K rho v V. pose proof V as V'. rewrite eval_mk2 in V. destruct (eval rho a) as [va|] eqn:Va; [|discriminate].
    destruct (eval rho b) as [vb|] eqn:Vb; [|discriminate].
    destruct (IHa (fun s q S => K s q (subterm_trans _ _ _ S (sub_mk2_l t a b))) rho va Va) as (a' & Ea & La).
    destruct (IHb (fun s q S => K s q (subterm_trans _ _ _ S (sub_mk2_r t a b))) rho vb Vb) as (b' & Eb & Lb).
    assert (forall n k, t = ODiv -> b' = Expr (Operand (Num n)) k -> val_is_zero (nval n) = false) as NZ.
    { intros n k -> ->. cbn [obind ev2] in V. destruct (Req_EM_T vb 0) as [|NZ]; [discriminate|].
      pose proof (agg_sound rho b (fe_wf b Fb) (fe_avoids b Fb) _ vb Eb Vb) as Q. cbn [eval] in Q.
      exact (nbd_nonzero n _ vb (lits_root n k Lb) Q NZ). }
    destruct (rule2_frac t a' b' T La Lb NZ) as (z & Z & R). 
    assert (num_aggregate Strict (mk2 t a b) = Ok z) as E.
    { rewrite agg_mk2 by (destruct T as [-> | [-> | [-> | ->]]]; reflexivity). rewrite Ea, Eb. exact Z. }
    exists z. split; [exact E|]. destruct R as [R|(n & -> & Bn & Rn)]; [exact R|]. apply lits_num.
    destruct (nbd_exact n _ Bn) as (q & Q & R' & _). apply (red_small n _ q Bn Rn Q). apply (K (mk2 t a b) q (sub_refl _)).
    intros rho' w _ Hw. pose proof (agg_sound rho' _ (fe_wf _ Fe) (fe_avoids _ Fe) _ w E Hw) as G. unfold e_num in G. rewrite eval_num in G.
    rewrite R' in G. injection G as <-. reflexivity. }
  clear W0 A0. induction F.
  - intros _ rho v _. exists (e_num n). split; [reflexivity|]. apply fe_lits. exact (fe_num n q H H0 H1).
  - intros _ rho v _. exists (e_var x). split; [reflexivity|]. apply fe_lits. constructor.
  - apply (U ONeg); auto.
  - apply (U OSin); auto.
  - apply (U OCos); auto.
  - apply (U OLn); auto.
  - apply (B OAdd); auto. constructor; assumption.
  - apply (B OSub); auto. constructor; assumption.
  - apply (B OMul); auto 6. constructor; assumption.
  - apply (B ODiv); auto 6. constructor; assumption.
Qed.


(** ** what simplification does to the parts of an expression *)
Definition u1 (t : optype) : Prop := t = ONeg \/ t = OSin \/ t = OCos \/ t = OLn.
Definition u2 (t : optype) : Prop := t = OAdd \/ t = OSub \/ t = OMul \/ t = ODiv.
Inductive cl : expr -> Prop :=
| cl_num n : num_ok n -> cl (e_num n)
| cl_var x : cl (e_var x)
| cl_1 t a : u1 t -> cl a -> cl (mk1 t a)
| cl_2 t a b : u2 t -> cl a -> cl b -> cl (mk2 t a b).
Lemma u1_ar t : u1 t -> arity t = 1%nat. Proof. intros [-> | [-> | [-> | ->]]]; reflexivity. Qed.
Lemma u2_ar t : u2 t -> arity t = 2%nat. Proof. intros [-> | [-> | [-> | ->]]]; reflexivity. Qed.
Lemma cl_wf e : cl e -> wf e.
Proof. induction 1; [apply wf_num'; assumption|apply wf_var|apply wf_mk1; [apply u1_ar|]; assumption|apply wf_mk2; [apply u2_ar|..]; assumption]. Qed.
Lemma fe_cl e : frac_expr e -> cl e.
Proof.
  induction 1; [apply cl_num; assumption|apply cl_var|apply (cl_1 ONeg)|apply (cl_1 OSin)|apply (cl_1 OCos)|apply (cl_1 OLn)|apply (cl_2 OAdd)|apply (cl_2 OSub)|apply (cl_2 OMul)|apply (cl_2 ODiv)];
    try assumption; unfold u1, u2; auto.
Qed.
Lemma cl_fe e : cl e -> lits e -> frac_expr e.
Proof.
  induction 1 as [n O|x|t a T A IH|t a b T A IHa B IHb]; intros L.
  - destruct (nbd_exact n _ (lits_root n [] L)) as (q & Q & _ & H). apply (fe_num n q O Q). unfold BB in H. lia.
  - apply fe_var.
  - apply lits_mk1 in L. destruct T as [-> | [-> | [-> | ->]]]; [apply fe_neg|apply fe_sin|apply fe_cos|apply fe_ln]; auto.
  - apply lits_mk2 in L as (La & Lb). destruct T as [-> | [-> | [-> | ->]]]; [apply fe_add|apply fe_sub|apply fe_mul|apply fe_div]; auto.
Qed.
Lemma cl_op op c : cl (Expr (Operator op) c) -> (exists t a, u1 t /\ cl a /\ op = gen_op t /\ c = [a]) \/ (exists t a b, u2 t /\ cl a /\ cl b /\ op = gen_op t /\ c = [a; b]).
Proof. intros H. inversion H; subst; [left|right]; eauto 10. Qed.

(** for assignments in [Dm], the value of [e], where it has one, is [c] *)
Definition vals (Dm : (string -> R) -> Prop) (e : expr) (c : R) : Prop := forall rho w, Dm rho -> eval rho e = Some w -> w = c.

Inductive simp (Dm : (string -> R) -> Prop) : expr -> expr -> Prop :=
| sp_refl e : simp Dm e e
| sp_trans a b c : simp Dm a b -> cl b -> simp Dm b c -> simp Dm a c
| sp_num n e c : num_ok n -> num_R n = Some c -> vals Dm e c -> simp Dm (e_num n) e
| sp_add0l a b z : vals Dm a 0 -> simp Dm z b -> simp Dm z (e_add a b)
| sp_add0r a b z : vals Dm b 0 -> simp Dm z a -> simp Dm z (e_add a b)
| sp_sub0l a b z : vals Dm a 0 -> simp Dm z b -> simp Dm (e_neg z) (e_sub a b)
| sp_sub0r a b z : vals Dm b 0 -> simp Dm z a -> simp Dm z (e_sub a b)
| sp_mul1l a b z : vals Dm a 1 -> simp Dm z b -> simp Dm z (e_mul a b)
| sp_mul1r a b z : vals Dm b 1 -> simp Dm z a -> simp Dm z (e_mul a b)
| sp_neg a z : simp Dm (e_neg z) a -> simp Dm z (e_neg a)
| sp_mk1 t z a : simp Dm z a -> simp Dm (mk1 t z) (mk1 t a)
| sp_mk2 t y z a b : simp Dm y a -> simp Dm z b -> simp Dm (mk2 t y z) (mk2 t a b).

Lemma simp_value Dm z e : simp Dm z e -> forall rho w, Dm rho -> eval rho e = Some w -> eval rho z = Some w.
Proof.
  induction 1 as [e|a b c _ IH1 _ _ IH2|n e c O N V|a b z V S IH|a b z V S IH|a b z V S IH|a b z V S IH|a b z V S IH|a b z V S IH|a z S IH|t z a S IH|t y z a b S1 IH1 S2 IH2];
    intros rho w P H.
  - exact H.
  - exact (IH1 _ _ P (IH2 _ _ P H)).
  - unfold e_num. rewrite eval_num, N, (V _ _ P H). reflexivity.
  - apply eval2_some in H as (u & v & Hu & Hv & E). cbn in E. injection E as <-. rewrite (V _ _ P Hu), Rplus_0_l. exact (IH _ _ P Hv).
  - apply eval2_some in H as (u & v & Hu & Hv & E). cbn in E. injection E as <-. rewrite (V _ _ P Hv), Rplus_0_r. exact (IH _ _ P Hu).
  - apply eval2_some in H as (u & v & Hu & Hv & E). cbn in E. injection E as <-. rewrite (V _ _ P Hu), Rminus_0_l. unfold e_neg.
    rewrite eval_mk1, (IH _ _ P Hv). reflexivity.
  - apply eval2_some in H as (u & v & Hu & Hv & E). cbn in E. injection E as <-. rewrite (V _ _ P Hv), Rminus_0_r. exact (IH _ _ P Hu).
  - apply eval2_some in H as (u & v & Hu & Hv & E). cbn in E. injection E as <-. rewrite (V _ _ P Hu), Rmult_1_l. exact (IH _ _ P Hv).
  - apply eval2_some in H as (u & v & Hu & Hv & E). cbn in E. injection E as <-. rewrite (V _ _ P Hv), Rmult_1_r. exact (IH _ _ P Hu).
  - apply eval1_inv in H as (u & Hu & E). cbn in E. injection E as <-. pose proof (IH _ _ P Hu) as K. apply eval1_inv in K as (v & Hv & E).
    cbn in E. injection E as <-. rewrite Ropp_involutive. exact Hv.
  - apply eval1_inv in H as (u & Hu & E). rewrite eval_mk1, (IH _ _ P Hu). exact E.
  - apply eval2_some in H as (u & v & Hu & Hv & E). rewrite eval_mk2, (IH1 _ _ P Hu), (IH2 _ _ P Hv). exact E.
Qed.

(** every part of [z] has the value of some part of [e] *)
Definition cover (Dm : (string -> R) -> Prop) (z e : expr) : Prop := forall s', subterm s' z ->
  exists s, subterm s e /\ forall rho w, Dm rho -> eval rho s = Some w -> eval rho s' = Some w.
Lemma simp_cover Dm z e : simp Dm z e -> cover Dm z e.
Proof.
  induction 1 as [e|a b c S1 IH1 _ S2 IH2|n e c O N V|a b z V S IH|a b z V S IH|a b z V S IH|a b z V S IH|a b z V S IH|a b z V S IH|a z S IH|t z a S IH|t y z a b S1 IH1 S2 IH2];
    intros s H.
  - exists s. auto.
  - destruct (IH1 s H) as (s1 & H1 & K1). destruct (IH2 s1 H1) as (s2 & H2 & K2). exists s2. split; [exact H2|]. auto.
  - apply subterm_num in H as ->. exists e. split; [apply sub_refl|]. exact (simp_value Dm _ _ (sp_num Dm n e c O N V)).
  - destruct (IH s H) as (s1 & H1 & K1). exists s1. split; [exact (subterm_trans _ _ _ H1 (sub_mk2_r _ _ _))|exact K1].
  - destruct (IH s H) as (s1 & H1 & K1). exists s1. split; [exact (subterm_trans _ _ _ H1 (sub_mk2_l _ _ _))|exact K1].
  - apply subterm_mk1 in H as [-> |H]; [exists (e_sub a b); split; [apply sub_refl|exact (simp_value Dm _ _ (sp_sub0l Dm a b z V S))]|].
    destruct (IH s H) as (s1 & H1 & K1). exists s1. split; [exact (subterm_trans _ _ _ H1 (sub_mk2_r _ _ _))|exact K1].
  - destruct (IH s H) as (s1 & H1 & K1). exists s1. split; [exact (subterm_trans _ _ _ H1 (sub_mk2_l _ _ _))|exact K1].
  - destruct (IH s H) as (s1 & H1 & K1). exists s1. split; [exact (subterm_trans _ _ _ H1 (sub_mk2_r _ _ _))|exact K1].
  - destruct (IH s H) as (s1 & H1 & K1). exists s1. split; [exact (subterm_trans _ _ _ H1 (sub_mk2_l _ _ _))|exact K1].
  - destruct (IH s (subterm_trans _ _ _ H (sub_mk1 ONeg z))) as (s1 & H1 & K1). exists s1. split; [exact (subterm_trans _ _ _ H1 (sub_mk1 _ _))|exact K1].
  - apply subterm_mk1 in H as [-> |H]; [exists (mk1 t a); split; [apply sub_refl|exact (simp_value Dm _ _ (sp_mk1 Dm t z a S))]|].
    destruct (IH s H) as (s1 & H1 & K1). exists s1. split; [exact (subterm_trans _ _ _ H1 (sub_mk1 _ _))|exact K1].
  - apply subterm_mk2 in H as [-> |[H|H]]; [exists (mk2 t a b); split; [apply sub_refl|exact (simp_value Dm _ _ (sp_mk2 Dm t y z a b S1 S2))]|..].
    + destruct (IH1 s H) as (s1 & H1 & K1). exists s1. split; [exact (subterm_trans _ _ _ H1 (sub_mk2_l _ _ _))|exact K1].
    + destruct (IH2 s H) as (s1 & H1 & K1). exists s1. split; [exact (subterm_trans _ _ _ H1 (sub_mk2_r _ _ _))|exact K1].
Qed.
Lemma simp_small Dm z e : simp Dm z e -> small_constants Dm e -> small_constants Dm z.
Proof.
  intros S K s q H C. destruct (simp_cover Dm z e S s H) as (s1 & H1 & V). apply (K s1 q H1). intros rho w P W. exact (C rho w P (V rho w P W)).
Qed.

(** ** simplifying gives an expression related to the given one *)
Lemma cl_zero : cl e_zero. Proof. exact (cl_num _ (api_number_ok Debug _ (An_i64 Debug 0 eq_refl))). Qed.
Lemma cl_one : cl e_one. Proof. exact (cl_num _ (api_number_ok Debug _ (An_i64 Debug 1 eq_refl))). Qed.
Lemma cl_neg_inv op r c : descriptor op = ONeg -> cl (Expr (Operator op) (r ++ [c])) -> cl c /\ Expr (Operator op) (r ++ [c]) = e_neg c.
Proof.
  intros D C. apply cl_op in C as [(t & b & U & Cb & -> & E)|(t & b & b' & U & Cb & Cb' & -> & E)]; rewrite descriptor_gen in D; subst t.
  - apply (app_inj_tail r []) in E as (-> & ->). auto.
  - unfold u2 in U. intuition discriminate.
Qed.
Lemma simp_number Dm n e : num_ok n -> lits (e_num n) -> (forall rho w, eval rho e = Some w -> eval rho (e_num n) = Some w) ->
  simp Dm (e_num n) e /\ cl (e_num n).
Proof.
  intros O L V. split; [|exact (cl_num n O)]. destruct (nbd_exact n _ (lits_root n [] L)) as (q & _ & R' & _).
  apply (sp_num Dm n e (Q2R q) O R'). intros rho w _ H. pose proof (V rho w H) as G. unfold e_num in G. rewrite eval_num, R' in G. injection G as <-. reflexivity.
Qed.
Lemma simp_step1 Dm t a a' z : u1 t -> cl a' -> simp Dm a' a -> ar1 Strict t a' z -> wf z -> lits z ->
  (forall rho w, eval rho (mk1 t a) = Some w -> eval rho z = Some w) -> simp Dm z (mk1 t a) /\ cl z.
Proof.
  intros T C P A W L V.
  assert (forall n, z = e_num n -> simp Dm z (mk1 t a) /\ cl z) as N.
  { intros n ->. apply simp_number; [apply wf_num_inv in W; tauto|exact L|exact V]. }
  destruct A; try exact (N _ eq_refl); try (split; [apply sp_mk1; exact P|apply cl_1; assumption]); try (unfold u1 in T; intuition discriminate).
  - apply cl_neg_inv in C as (C & E); [|exact H]. rewrite E in P. split; [apply sp_neg; exact P|exact C].
  - exfalso. apply cl_op in C as [(t & b & U & Cb & -> & E)|(t & b & b' & U & Cb & Cb' & -> & E)]; rewrite descriptor_gen in H; subst t; unfold u1, u2 in U; intuition discriminate.
Qed.
Lemma simp_step2 Dm t a b a' b' z : u2 t -> cl a' -> cl b' -> simp Dm a' a -> simp Dm b' b -> ar2 Strict t a' b' z -> wf z -> lits z ->
  (forall rho w, eval rho a = Some w -> eval rho a' = Some w) -> (forall rho w, eval rho b = Some w -> eval rho b' = Some w) ->
  (forall rho w, eval rho (mk2 t a b) = Some w -> eval rho z = Some w) -> simp Dm z (mk2 t a b) /\ cl z.
Proof.
  intros T Ca Cb Pa Pb A W L Va Vb V.
  assert (forall n, z = e_num n -> simp Dm z (mk2 t a b) /\ cl z) as N.
  { intros n ->. apply simp_number; [apply wf_num_inv in W; tauto|exact L|exact V]. }
  assert (is_zero a' = true -> vals Dm a 0) as Za by (intros Z rho w _ H; exact (eval_is_zero rho a' w (cl_wf _ Ca) Z (Va rho w H))).
  assert (is_zero b' = true -> vals Dm b 0) as Zb by (intros Z rho w _ H; exact (eval_is_zero rho b' w (cl_wf _ Cb) Z (Vb rho w H))).
  assert (is_one a' = true -> vals Dm a 1) as Oa by (intros Z rho w _ H; exact (eval_is_one rho a' w (cl_wf _ Ca) Z (Va rho w H))).
  assert (is_one b' = true -> vals Dm b 1) as Ob by (intros Z rho w _ H; exact (eval_is_one rho b' w (cl_wf _ Cb) Z (Vb rho w H))).
  destruct A; try exact (N _ eq_refl); try (split; [apply sp_mk2; assumption|apply cl_2; assumption]); try (unfold u2 in T; intuition discriminate).
  - split; [apply sp_add0l; auto|exact Cb].
  - split; [apply sp_add0r; auto|exact Ca].
  - split; [apply sp_sub0l; auto|apply cl_1; [unfold u1; auto|exact Cb]].
  - split; [apply sp_sub0r; auto|exact Ca].
  - split; [apply sp_mul1l; auto|exact Cb].
  - split; [apply sp_mul1r; auto|exact Ca].
Qed.
Lemma agg_simp Dm e : frac_expr e -> small_constants Dm e -> forall rho v, eval rho e = Some v ->
  exists z, num_aggregate Strict e = Ok z /\ lits z /\ cl z /\ simp Dm z e.
Proof.
  intros F. pose proof (fe_cl e F) as C. revert F. induction C as [n O|x|t a T C IH|t a b T Ca IHa Cb IHb]; intros F K rho v V;
    destruct (agg_frac Dm _ F K rho v V) as (z & E & L); exists z; (split; [exact E|]); (split; [exact L|]).
  - injection E as <-. split; [exact (cl_num n O)|apply sp_refl].
  - injection E as <-. split; [apply cl_var|apply sp_refl].
  - assert (frac_expr a) as Fa by (unfold u1 in T; intuition subst; inversion F; assumption).
    pose proof V as V'. apply eval1_inv in V' as (u & Hu & _).
    destruct (IH Fa (fun s q S => K s q (subterm_trans _ _ _ S (sub_mk1 t a))) rho u Hu) as (a' & Ea & La & Ca & Pa).
    rewrite agg_mk1, Ea in E by exact (u1_ar t T). cbn [bind] in E. pose proof E as E'.
    apply rule1_ar in E'; [|exact (u1_ar t T)].
    assert (num_aggregate Strict (mk1 t a) = Ok z) as Ez by (rewrite agg_mk1, Ea by exact (u1_ar t T); exact E).
    destruct (simp_step1 Dm t a a' z T Ca Pa E' (agg_wf _ _ _ (fe_wf _ F) Ez) L) as (G1 & G2); [|auto].
    intros r w H. exact (agg_sound r _ (fe_wf _ F) (fe_avoids _ F) z w Ez H).
  - assert (frac_expr a /\ frac_expr b) as (Fa & Fb) by (unfold u2 in T; intuition subst; inversion F; assumption).
    pose proof V as V'. apply eval2_some in V' as (u & w & Hu & Hw & _).
    destruct (IHa Fa (fun s q S => K s q (subterm_trans _ _ _ S (sub_mk2_l t a b))) rho u Hu) as (a' & Ea & La & Ca' & Pa).
    destruct (IHb Fb (fun s q S => K s q (subterm_trans _ _ _ S (sub_mk2_r t a b))) rho w Hw) as (b' & Eb & Lb & Cb' & Pb).
    pose proof E as Ez. rewrite agg_mk2, Ea, Eb in E by exact (u2_ar t T). cbn [bind] in E.
    apply rule2_ar in E; [|exact (u2_ar t T)].
    destruct (simp_step2 Dm t a b a' b' z T Ca' Cb' Pa Pb E (agg_wf _ _ _ (fe_wf _ F) Ez) L) as (G1 & G2); [..|auto].
    + intros r y H. exact (agg_sound r _ (fe_wf _ Fa) (fe_avoids _ Fa) a' y Ea H).
    + intros r y H. exact (agg_sound r _ (fe_wf _ Fb) (fe_avoids _ Fb) b' y Eb H).
    + intros r y H. exact (agg_sound r _ (fe_wf _ F) (fe_avoids _ F) z y Ez H).
Qed.

(** ** the textbook derivative *)
Lemma tb_1 x t a : u1 t -> textbook x (mk1 t a) = raw1 t a (textbook x a).
Proof. intros [-> | [-> | [-> | ->]]]; reflexivity. Qed.
Lemma tb_2 x t a b : u2 t -> textbook x (mk2 t a b) = raw2 t a b (textbook x a) (textbook x b).
Proof. intros [-> | [-> | [-> | ->]]]; reflexivity. Qed.
Lemma cl_raw1 t a d : u1 t -> cl a -> cl d -> cl (raw1 t a d).
Proof.
  intros T A D. destruct T as [-> | [-> | [-> | ->]]]; cbn [raw1]; unfold e_neg, e_mul, e_div, e_cos, e_sin;
    repeat first [assumption | apply cl_2; [unfold u2; auto|..] | apply cl_1; [unfold u1; auto|]].
Qed.
Lemma cl_raw2 t a b d d' : u2 t -> cl a -> cl b -> cl d -> cl d' -> cl (raw2 t a b d d').
Proof.
  intros T A B D D'. destruct T as [-> | [-> | [-> | ->]]]; cbn [raw2]; unfold e_add, e_sub, e_mul, e_div;
    repeat first [assumption | apply cl_2; [unfold u2; auto|..] | apply cl_1; [unfold u1; auto|]].
Qed.
Lemma tb_cl x e : cl e -> cl (textbook x e).
Proof.
  induction 1 as [n O|y|t a T C IH|t a b T Ca IHa Cb IHb]; [apply cl_zero| |rewrite tb_1 by exact T; apply cl_raw1; assumption|rewrite tb_2 by exact T; apply cl_raw2; assumption].
  cbn [textbook e_var]. destruct (String.eqb x y); [apply cl_one|apply cl_zero].
Qed.
Lemma tbn_S x k : forall e, textbook_n x (S k) e = textbook x (textbook_n x k e).
Proof. induction k as [|k IH]; intros e; [reflexivity|]. exact (IH (textbook x e)). Qed.
Lemma tbn_cl x k : forall e, cl e -> cl (textbook_n x k e).
Proof. induction k as [|k IH]; intros e C; [exact C|]. exact (IH _ (tb_cl x e C)). Qed.

Lemma tb_correct rho x t0 e : cl e -> forall v, eval (upd rho x t0) e = Some v ->
  exists d, eval (upd rho x t0) (textbook x e) = Some d /\ dat rho x e t0 d.
Proof.
  induction 1 as [n O|y|t a T C IH|t a b T Ca IHa Cb IHb]; intros v V.
  - exists 0%R. split; [apply eval_zero|]. apply dat_intro with (g := fun _ => v).
    + apply filter_forall. intros t. exact V.
    + apply (is_derive_const (K := R_AbsRing) (V := R_NormedModule)).
  - cbn [textbook e_var]. destruct (String.eqb_spec x y) as [<-|N].
    + exists 1%R. split; [apply eval_one|]. apply dat_intro with (g := fun t => t).
      * apply filter_forall. intros t. unfold e_var. rewrite eval_var, upd_same. reflexivity.
      * apply (is_derive_id (K := R_AbsRing)).
    + exists 0%R. split; [apply eval_zero|]. apply dat_intro with (g := fun _ => rho y).
      * apply filter_forall. intros t. unfold e_var. rewrite eval_var, upd_other; auto.
      * apply (is_derive_const (K := R_AbsRing) (V := R_NormedModule)).
  - apply eval1_inv in V as (u & Hu & E). destruct (IH u Hu) as (d & Hd & Dd). rewrite tb_1 by exact T.
    eexists. split; [exact (eval_raw1 _ t a _ u v d (u1_ar t T) Hu E Hd)|exact (dat1 rho x t0 t a u v d (u1_ar t T) Hu E Dd)].
  - apply eval2_some in V as (u & w & Hu & Hw & E). destruct (IHa u Hu) as (d & Hd & Dd). destruct (IHb w Hw) as (d' & Hd' & Dd').
    rewrite tb_2 by exact T. assert (t <> OPow) as NP by (unfold u2 in T; intuition congruence). eexists.
    split; [exact (eval_raw2 _ t a b _ _ u w v d d' (u2_ar t T) Hu Hw E (fun P => False_ind _ (NP P)) Hd Hd')|
            exact (dat2 rho x t0 t a b u w v d d' (u2_ar t T) Hu Hw E (fun P => False_ind _ (NP P)) Dd Dd')].
Qed.

(** sets of assignments in which [x] can be moved a little *)
Definition opn (x : string) (Dm : (string -> R) -> Prop) : Prop := forall rho t0, Dm (upd rho x t0) -> locally t0 (fun t => Dm (upd rho x t)).
Definition total (Dm : (string -> R) -> Prop) (e : expr) : Prop := forall rho, Dm rho -> defined rho e.
Lemma upd_id rho x : upd rho x (rho x) = rho.
Proof. apply functional_extensionality. intros y. apply upd_self. Qed.
Lemma opn_defined x e : cl e -> opn x (fun rho => defined rho e).
Proof.
  intros C rho t0 (v & V). destruct (tb_correct rho x t0 e C v V) as (d & _ & L & _). eapply filter_imp; [|exact L].
  intros t H. eexists. exact H.
Qed.
Lemma vals_tb Dm x e c : opn x Dm -> cl e -> total Dm e -> vals Dm e c -> vals Dm (textbook x e) 0.
Proof.
  intros O C T V rho w H W. rewrite <- (upd_id rho x) in H, W. set (t0 := rho x) in *. clearbody t0.
  destruct (T _ H) as (v & Hv). destruct (tb_correct rho x t0 e C v Hv) as (d & Hd & L & D). rewrite Hd in W. injection W as <-.
  assert (is_derive (evalx rho x e) t0 0%R) as Z.
  { apply (is_derive_ext_loc (fun _ => c)); [|apply (is_derive_const (K := R_AbsRing) (V := R_NormedModule))].
    eapply filter_imp; [|exact (filter_and _ _ (O rho t0 H) L)]. cbn. intros t (P & Q). symmetry. exact (V _ _ P Q). }
  rewrite <- (is_derive_unique _ _ _ D). exact (is_derive_unique _ _ _ Z).
Qed.
Lemma total_1 Dm t a : total Dm (mk1 t a) -> total Dm a.
Proof. intros T rho H. destruct (T rho H) as (v & V). apply eval1_inv in V as (u & U & _). exists u. exact U. Qed.
Lemma total_2 Dm t a b : total Dm (mk2 t a b) -> total Dm a /\ total Dm b.
Proof.
  intros T. split; intros rho H; destruct (T rho H) as (v & V); apply eval2_some in V as (u & w & U & W & _); eexists; eassumption.
Qed.
Lemma total_simp Dm z e : simp Dm z e -> total Dm e -> total Dm z.
Proof. intros P T rho H. destruct (T rho H) as (v & V). exists v. exact (simp_value Dm z e P rho v H V). Qed.
Lemma cl_1_inv t a : cl (mk1 t a) -> u1 t /\ cl a.
Proof. intros C. apply cl_op in C as [(t' & b & U & Cb & E & E')|(t' & b & b' & U & Cb & Cb' & E & E')]; [|discriminate]. apply gen_op_inj in E as <-. injection E' as <-. auto. Qed.
Lemma cl_2_inv t a b : cl (mk2 t a b) -> u2 t /\ cl a /\ cl b.
Proof. intros C. apply cl_op in C as [(t' & b1 & U & Cb & E & E')|(t' & b1 & b' & U & Cb & Cb' & E & E')]; [discriminate|]. apply gen_op_inj in E as <-. injection E' as <- <-. auto. Qed.

Lemma vals_mul0l Dm a b : vals Dm a 0 -> vals Dm (e_mul a b) 0.
Proof. intros V rho w H W. apply eval2_some in W as (u & v & Hu & Hv & E). cbn in E. injection E as <-. rewrite (V _ _ H Hu). ring. Qed.
Lemma vals_mul0r Dm a b : vals Dm b 0 -> vals Dm (e_mul a b) 0.
Proof. intros V rho w H W. apply eval2_some in W as (u & v & Hu & Hv & E). cbn in E. injection E as <-. rewrite (V _ _ H Hv). ring. Qed.
Lemma simp_raw1 Dm t z a d d' : u1 t -> simp Dm z a -> simp Dm d d' -> simp Dm (raw1 t z d) (raw1 t a d').
Proof.
  intros T P Q. destruct T as [-> | [-> | [-> | ->]]]; cbn [raw1]; unfold e_neg, e_mul, e_div, e_cos, e_sin;
    repeat first [assumption | apply sp_mk2 | apply sp_mk1].
Qed.
Lemma simp_raw2 Dm t y z a b d d' f f' : u2 t -> simp Dm y a -> simp Dm z b -> simp Dm d f -> simp Dm d' f' -> simp Dm (raw2 t y z d d') (raw2 t a b f f').
Proof.
  intros T P Q P' Q'. destruct T as [-> | [-> | [-> | ->]]]; cbn [raw2]; unfold e_add, e_sub, e_mul, e_div;
    repeat first [assumption | apply sp_mk2 | apply sp_mk1].
Qed.
Lemma simp_tb Dm x z e : opn x Dm -> simp Dm z e -> cl e -> total Dm e -> simp Dm (textbook x z) (textbook x e).
Proof.
  intros O. induction 1 as [e|a b c S1 IH1 Cb S2 IH2|n e c On N V|a b z V P IH|a b z V P IH|a b z V P IH|a b z V P IH|a b z V P IH|a b z V P IH|a z P IH|t z a P IH|t y z a b P1 IH1 P2 IH2];
    intros C T.
  - apply sp_refl.
  - exact (sp_trans Dm _ _ _ (IH1 Cb (total_simp Dm b c S2 T)) (tb_cl x b Cb) (IH2 C T)).
  - apply (sp_num Dm _ _ 0%R (api_number_ok Debug _ (An_i64 Debug 0 eq_refl))); [exact (num_R_int 0)|]. exact (vals_tb Dm x e c O C T V).
  - apply cl_2_inv in C as (U & Ca & Cb). apply total_2 in T as (Ta & Tb). apply sp_add0l; [exact (vals_tb Dm x a 0 O Ca Ta V)|exact (IH Cb Tb)].
  - apply cl_2_inv in C as (U & Ca & Cb). apply total_2 in T as (Ta & Tb). apply sp_add0r; [exact (vals_tb Dm x b 0 O Cb Tb V)|exact (IH Ca Ta)].
  - apply cl_2_inv in C as (U & Ca & Cb). apply total_2 in T as (Ta & Tb). apply sp_sub0l; [exact (vals_tb Dm x a 0 O Ca Ta V)|exact (IH Cb Tb)].
  - apply cl_2_inv in C as (U & Ca & Cb). apply total_2 in T as (Ta & Tb). apply sp_sub0r; [exact (vals_tb Dm x b 0 O Cb Tb V)|exact (IH Ca Ta)].
  - apply cl_2_inv in C as (U & Ca & Cb). apply total_2 in T as (Ta & Tb). apply sp_add0l; [exact (vals_mul0l Dm _ _ (vals_tb Dm x a 1 O Ca Ta V))|].
    apply sp_mul1l; [exact V|exact (IH Cb Tb)].
  - apply cl_2_inv in C as (U & Ca & Cb). apply total_2 in T as (Ta & Tb). apply sp_add0r; [exact (vals_mul0r Dm _ _ (vals_tb Dm x b 1 O Cb Tb V))|].
    apply sp_mul1r; [exact V|exact (IH Ca Ta)].
  - apply cl_1_inv in C as (U & Ca). apply total_1 in T. exact (sp_neg Dm _ _ (IH Ca T)).
  - apply cl_1_inv in C as (U & Ca). apply total_1 in T. rewrite !tb_1 by exact U. apply simp_raw1; [exact U|exact P|exact (IH Ca T)].
  - apply cl_2_inv in C as (U & Ca & Cb). apply total_2 in T as (Ta & Tb). rewrite !tb_2 by exact U. apply simp_raw2; auto.
Qed.

(** ** the derivative *)
Lemma small_sub Dm e s : small_constants Dm e -> subterm s e -> small_constants Dm s.
Proof. intros K P s' q S. apply K. exact (subterm_trans _ _ _ S P). Qed.
Lemma lits_raw1 t a d : u1 t -> lits a -> lits d -> lits (raw1 t a d).
Proof.
  intros T A D. destruct T as [-> | [-> | [-> | ->]]]; cbn [raw1]; unfold e_neg, e_mul, e_div, e_cos, e_sin;
    repeat first [assumption | apply lits_mk2; split | apply lits_mk1].
Qed.
Lemma lits_raw2 t a b d d' : u2 t -> lits a -> lits b -> lits d -> lits d' -> lits (raw2 t a b d d').
Proof.
  intros T A B D D'. destruct T as [-> | [-> | [-> | ->]]]; cbn [raw2]; unfold e_add, e_sub, e_mul, e_div;
    repeat first [assumption | apply lits_mk2; split | apply lits_mk1].
Qed.
Lemma sub_raw1 t a d : u1 t -> subterm d (raw1 t a d).
Proof. intros [-> | [-> | [-> | ->]]]; cbn [raw1]; [apply sub_mk1|apply sub_mk2_r|apply sub_mk2_r|apply sub_mk2_l]. Qed.
Lemma sub_raw2 t a b d d' : u2 t -> subterm d (raw2 t a b d d') /\ subterm d' (raw2 t a b d d').
Proof.
  intros [-> | [-> | [-> | ->]]]; cbn [raw2].
  - split; [apply sub_mk2_l|apply sub_mk2_r].
  - split; [apply sub_mk2_l|apply sub_mk2_r].
  - split; [exact (subterm_trans _ _ _ (sub_mk2_l _ _ _) (sub_mk2_l _ _ _))|exact (subterm_trans _ _ _ (sub_mk2_r _ _ _) (sub_mk2_r _ _ _))].
  - split; refine (subterm_trans _ _ _ _ (sub_mk2_l _ _ _));
      [exact (subterm_trans _ _ _ (sub_mk2_l _ _ _) (sub_mk2_l _ _ _))|exact (subterm_trans _ _ _ (sub_mk2_r _ _ _) (sub_mk2_r _ _ _))].
Qed.
Lemma deriv_frac (Dm : (string -> R) -> Prop) x rho t0 e : cl e -> lits e -> forall v, eval (upd rho x t0) e = Some v -> Dm (upd rho x t0) -> small_constants Dm (textbook x e) ->
  exists d, deriv Strict x e = Ok d /\ lits d /\ cl d /\ simp Dm d (textbook x e).
Proof.
  induction 1 as [n O|y|t a T C IH|t a b T Ca IHa Cb IHb]; intros L v V P K.
  - exists e_zero. split; [reflexivity|]. split; [apply lits_zero|]. split; [apply cl_zero|apply sp_refl].
  - unfold e_var. rewrite deriv_var. cbn [textbook] in *. eexists. split; [reflexivity|]. 
    split; [|split; [|apply sp_refl]]; destruct (String.eqb x y); [apply lits_one|apply lits_zero|apply cl_one|apply cl_zero].
  - apply lits_mk1 in L. pose proof V as V'. apply eval1_inv in V' as (u & Hu & E). rewrite tb_1 in * by exact T.
    destruct (IH L u Hu P (small_sub _ _ _ K (sub_raw1 t a _ T))) as (d & Ed & Ld & Cd & Sd).
    rewrite deriv_mk1, Ed by exact (u1_ar t T). cbn [bind].
    pose proof (simp_raw1 Dm t a a d (textbook x a) T (sp_refl Dm a) Sd) as G.
    pose proof (cl_raw1 t a d T C Cd) as Cr. pose proof (lits_raw1 t a d T L Ld) as Lr.
    destruct (tb_correct rho x t0 _ C u Hu) as (du & Hdu & _).
    pose proof (eval_raw1 (upd rho x t0) t a (textbook x a) u v du (u1_ar t T) Hu E Hdu) as W.
    destruct (agg_simp Dm (raw1 t a d) (cl_fe _ Cr Lr) (simp_small Dm _ _ G K) (upd rho x t0) _ (simp_value Dm _ _ G _ _ P W)) as (z & Ez & Lz & Cz & Sz).
    exists z. split; [exact Ez|]. split; [exact Lz|]. split; [exact Cz|exact (sp_trans Dm _ _ _ Sz Cr G)].
  - apply lits_mk2 in L as (La & Lb). pose proof V as V'. apply eval2_some in V' as (u & w & Hu & Hw & E). rewrite tb_2 in * by exact T.
    destruct (sub_raw2 t a b (textbook x a) (textbook x b) T) as (Sa & Sb).
    destruct (IHa La u Hu P (small_sub _ _ _ K Sa)) as (d & Ed & Ld & Cd & Sd).
    destruct (IHb Lb w Hw P (small_sub _ _ _ K Sb)) as (d' & Ed' & Ld' & Cd' & Sd').
    rewrite deriv_mk2, Ed, Ed' by exact (u2_ar t T). cbn [bind].
    pose proof (simp_raw2 Dm t a b a b d d' (textbook x a) (textbook x b) T (sp_refl Dm a) (sp_refl Dm b) Sd Sd') as G.
    pose proof (cl_raw2 t a b d d' T Ca Cb Cd Cd') as Cr. pose proof (lits_raw2 t a b d d' T La Lb Ld Ld') as Lr.
    destruct (tb_correct rho x t0 _ Ca u Hu) as (du & Hdu & _). destruct (tb_correct rho x t0 _ Cb w Hw) as (dw & Hdw & _).
    assert (t <> OPow) as NP by (unfold u2 in T; intuition congruence).
    pose proof (eval_raw2 (upd rho x t0) t a b (textbook x a) (textbook x b) u w v du dw (u2_ar t T) Hu Hw E (fun Q => False_ind _ (NP Q)) Hdu Hdw) as W.
    destruct (agg_simp Dm (raw2 t a b d d') (cl_fe _ Cr Lr) (simp_small Dm _ _ G K) (upd rho x t0) _ (simp_value Dm _ _ G _ _ P W)) as (z & Ez & Lz & Cz & Sz).
    exists z. split; [exact Ez|]. split; [exact Lz|]. split; [exact Cz|exact (sp_trans Dm _ _ _ Sz Cr G)].
Qed.

(** ** substitution *)
Definition at_dom (x : string) (at_ : expr) (Dm : (string -> R) -> Prop) : (string -> R) -> Prop :=
  fun rho => exists a, eval rho at_ = Some a /\ Dm (upd rho x a).
Lemma vals_subst Dm x at_ e c : vals Dm e c -> vals (at_dom x at_ Dm) (subst x at_ e) c.
Proof. intros V rho w (a & A & H) W. rewrite (eval_subst rho x at_ a e A) in W. exact (V _ _ H W). Qed.
Lemma cl_subst x at_ e : cl at_ -> cl e -> cl (subst x at_ e).
Proof.
  intros A. induction 1 as [n O|y|t a T C IH|t a b T Ca IHa Cb IHb]; [exact (cl_num n O)| |rewrite subst_mk1; apply cl_1; assumption|rewrite subst_mk2; apply cl_2; assumption].
  cbn [subst e_var]. destruct (String.eqb y x); [exact A|apply cl_var].
Qed.
Lemma lits_subst x at_ e : lits at_ -> cl e -> lits e -> lits (subst x at_ e).
Proof.
  intros A. induction 1 as [n O|y|t a T C IH|t a b T Ca IHa Cb IHb]; intros L.
  - exact L.
  - cbn [subst e_var]. destruct (String.eqb y x); [exact A|exact L].
  - apply lits_mk1 in L. rewrite subst_mk1. apply lits_mk1. auto.
  - apply lits_mk2 in L as (L1 & L2). rewrite subst_mk2. apply lits_mk2. auto.
Qed.
Lemma simp_subst Dm x at_ z e : cl at_ -> simp Dm z e -> simp (at_dom x at_ Dm) (subst x at_ z) (subst x at_ e).
Proof.
  intros A. induction 1 as [e|a b c S1 IH1 Cb S2 IH2|n e c On N V|a b z V P IH|a b z V P IH|a b z V P IH|a b z V P IH|a b z V P IH|a b z V P IH|a z P IH|t z a P IH|t y z a b P1 IH1 P2 IH2].
  - apply sp_refl.
  - exact (sp_trans _ _ _ _ IH1 (cl_subst x at_ b A Cb) IH2).
  - exact (sp_num _ n _ c On N (vals_subst Dm x at_ e c V)).
  - exact (sp_add0l _ _ _ _ (vals_subst Dm x at_ _ _ V) IH).
  - exact (sp_add0r _ _ _ _ (vals_subst Dm x at_ _ _ V) IH).
  - exact (sp_sub0l _ _ _ _ (vals_subst Dm x at_ _ _ V) IH).
  - exact (sp_sub0r _ _ _ _ (vals_subst Dm x at_ _ _ V) IH).
  - exact (sp_mul1l _ _ _ _ (vals_subst Dm x at_ _ _ V) IH).
  - exact (sp_mul1r _ _ _ _ (vals_subst Dm x at_ _ _ V) IH).
  - exact (sp_neg _ _ _ IH).
  - exact (sp_mk1 _ t _ _ IH).
  - exact (sp_mk2 _ t _ _ _ _ IH1 IH2).
Qed.

(** ** values of the iterated textbook derivative *)
Lemma tbn_total Dm x k e : opn x Dm -> cl e -> total Dm e -> total Dm (textbook_n x k e).
Proof.
  intros O. revert e. induction k as [|k IH]; intros e C T; [exact T|]. apply IH; [exact (tb_cl x e C)|].
  intros rho H. destruct (T rho H) as (v & V). rewrite <- (upd_id rho x) in V.
  destruct (tb_correct rho x (rho x) e C v V) as (d & D & _). rewrite upd_id in D. exists d. exact D.
Qed.
Lemma tbn_value rho x e k : cl e -> forall t0, defined (upd rho x t0) e ->
  eval (upd rho x t0) (textbook_n x k e) = Some (Derive_n (evalx rho x e) k t0) /\ ex_derive_n (evalx rho x e) k t0.
Proof.
  intros C. induction k as [|k IH]; intros t0 D; [split; [|exact I]; destruct D as (v & V); cbn [textbook_n Derive_n]; rewrite V; unfold evalx; rewrite V; reflexivity|].
  rewrite tbn_S. destruct (tb_correct rho x t0 (textbook_n x k e) (tbn_cl x k e C) _ (proj1 (IH t0 D))) as (d & Hd & L & Dd).
  assert (locally t0 (fun t => evalx rho x (textbook_n x k e) t = Derive_n (evalx rho x e) k t)) as G.
  { eapply filter_imp; [|exact (opn_defined x e C rho t0 D)]. cbn. intros t Ht. exact (evalx_at _ _ _ _ _ (proj1 (IH t Ht))). }
  pose proof (is_derive_ext_loc _ _ _ _ G Dd) as Q. split; [rewrite Hd; f_equal; symmetry; exact (is_derive_unique _ _ _ Q)|exists d; exact Q].
Qed.

Lemma fact_small (Dm : (string -> R) -> Prop) rho k : Dm rho -> small_constants Dm (e_of_i64 (Z.of_nat (fact k))) -> Z.of_nat (fact k) < 2 ^ 31.
Proof.
  intros P K. destruct (K _ (inject_Z (Z.of_nat (fact k))) (sub_refl _)) as (p & d & Hp & Hd & E).
  - intros r w _ W. unfold e_of_i64, e_num in W. rewrite eval_num, num_R_int in W. injection W as <-. unfold Q2R, inject_Z. cbn [Qnum Qden]. field.
  - assert (inject_Z (Z.of_nat (fact k)) * inject_Z d == inject_Z p)%Q as G.
    { rewrite E. field. intros Z. unfold Qeq, inject_Z in Z. cbn in Z. lia. }
    rewrite <- inject_Z_mult in G. unfold Qeq, inject_Z in G. cbn [Qnum Qden] in G. nia.
Qed.
Lemma fact_le12 k : factZ k < 2 ^ 31 -> (k <= 12)%nat.
Proof.
  intros H. destruct (Nat.le_gt_cases k 12) as [L|L]; [exact L|exfalso].
  assert (forall i, (i <= k)%nat -> factZ i <= factZ k) as M by (intros i J; unfold factZ; apply inj_le, fact_le, J).
  pose proof (M 13%nat L) as G. rewrite factZ_Zfact in G. change (Zfact 13) with 6227020800 in G.
  assert (6227020800 < 2 ^ 31) as B by (eapply Z.le_lt_trans; eassumption). vm_compute in B. discriminate B.
Qed.

Lemma taylor_frac (Dm : (string -> R) -> Prop) x at_ rho a e : cl e -> opn x Dm -> total Dm e -> cl at_ -> lits at_ -> eval rho at_ = Some a -> Dm (upd rho x a) ->
  forall n k D c, cl D -> lits D -> simp Dm D (textbook_n x k e) ->
  (forall j, (k < j <= k + n)%nat -> small_constants Dm (textbook_n x j e)) ->
  (forall j, (k <= j < k + n)%nat -> small_constants (at_dom x at_ Dm) (e_div (subst x at_ (textbook_n x j e)) (e_of_i64 (factZ j)))) ->
  exists cs r, taylor_loop Strict x at_ n (Z.of_nat k) (sn_of_i64 (factZ (pred k))) D c = Ok ((c ++ cs)%list, r) /\
    (cl r /\ lits r /\ simp Dm r (textbook_n x (k + n) e)) /\ List.length cs = n /\
    forall j, (j < n)%nat -> exists cj, nth_error cs j = Some cj /\ cl cj /\ lits cj /\
      simp (at_dom x at_ Dm) cj (e_div (subst x at_ (textbook_n x (k + j) e)) (e_of_i64 (factZ (k + j)))).
Proof.
  intros Ce O T Ca La Ha Pa. assert (at_dom x at_ Dm rho) as Pr by (exists a; auto).
  induction n as [|n IH]; intros k D c CD LD SD K1 K2.
  - exists [], D. rewrite app_nil_r, Nat.add_0_r. split; [reflexivity|]. split; [auto|]. split; [reflexivity|]. intros; lia.
  - assert (factZ k < 2 ^ 31) as FB.
    { apply (fact_small (at_dom x at_ Dm) rho k Pr). exact (small_sub _ _ _ (K2 k ltac:(lia)) (sub_mk2_r _ _ _)). }
    assert (k <= 12)%nat as K12 by exact (fact_le12 k FB).
    assert (exists kn, sn_of_u64 Strict (Z.max (Z.of_nat k) 1) = Ok kn /\ sn_mul Strict (sn_of_i64 (factZ (pred k))) kn = Ok (sn_of_i64 (factZ k))) as (kn & E1 & E2).
    { rewrite !factZ_Zfact. clear - K12. do 13 (destruct k as [|k]; [eexists; split; [vm_compute; reflexivity|vm_compute; reflexivity]|]). lia. }
    assert (0 < factZ k) as FP by (unfold factZ; pose proof (lt_O_fact k); lia).
    cbn [taylor_loop]. rewrite E1. cbn [bind]. rewrite E2. cbn [bind].
    (* the coefficient *)
    pose proof (K2 k ltac:(lia)) as Kk. set (w := textbook_n x k e) in *.
    assert (cl w) as Cw by (apply tbn_cl; exact Ce). assert (total Dm w) as Tw by (apply tbn_total; assumption).
    pose proof (simp_subst Dm x at_ D w Ca SD) as Ss.
    pose proof (cl_subst x at_ D Ca CD) as Cs. pose proof (lits_subst x at_ D La CD LD) as Ls.
    destruct (Tw _ Pa) as (v & V). assert (eval rho (subst x at_ w) = Some v) as Vw by (rewrite (eval_subst rho x at_ a w Ha); exact V).
    pose proof (simp_value _ _ _ Ss rho v Pr Vw) as VD.
    destruct (agg_simp _ _ (cl_fe _ Cs Ls) (simp_small _ _ _ Ss (small_sub _ _ _ Kk (sub_mk2_l _ _ _))) rho v VD) as (s & Es & Lsx & Csx & Ssx).
    rewrite Es. cbn [bind].
    pose proof (sp_trans _ _ _ _ Ssx Cs Ss) as Sw.
    assert (num_ok (sn_of_i64 (factZ k))) as NOK by exact (api_number_ok Debug _ (An_i64 Debug (factZ k) ltac:(apply in_i64_iff; unfold two63; lia))).
    assert (frac_expr (e_of_i64 (factZ k))) as Fk.
    { apply (fe_num _ (inject_Z (factZ k)) NOK eq_refl). unfold height_num, num_of, den_of. rewrite nval_int. lia. }
    assert (cl (e_div s (e_of_i64 (factZ k)))) as Cq by (apply cl_2; [unfold u2; auto|exact Csx|exact (fe_cl _ Fk)]).
    assert (lits (e_div s (e_of_i64 (factZ k)))) as Lq by (apply lits_mk2; split; [exact Lsx|exact (fe_lits _ Fk)]).
    assert (simp (at_dom x at_ Dm) (e_div s (e_of_i64 (factZ k))) (e_div (subst x at_ w) (e_of_i64 (factZ k)))) as Sq by (apply sp_mk2; [exact Sw|apply sp_refl]).
    assert (exists v', eval rho (e_div s (e_of_i64 (factZ k))) = Some v') as (v' & Vq).
    { unfold e_div. rewrite eval_mk2, (simp_value _ _ _ Sw rho v Pr Vw). unfold e_of_i64, e_num. rewrite eval_num, num_R_int. cbn [obind ev2].
      destruct (Req_EM_T (IZR (factZ k)) 0) as [Z|_]; [apply eq_IZR_R0 in Z; lia|]. eexists; reflexivity. }
    destruct (agg_simp _ _ (cl_fe _ Cq Lq) (simp_small _ _ _ Sq Kk) rho v' Vq) as (ck & Ek & Lk & Ck & Sk).
    unfold e_of_i64 in Ek. rewrite Ek. cbn [bind].
    (* the next derivative *)
    pose proof (simp_tb Dm x D w O SD Cw Tw) as St. unfold w in St. rewrite <- tbn_S in St.
    assert (exists vD, eval (upd rho x a) D = Some vD) as (vD & HD) by (exists v; exact (simp_value _ _ _ SD _ v Pa V)).
    destruct (deriv_frac Dm x rho a D CD LD vD HD Pa (simp_small _ _ _ St (K1 (S k) ltac:(lia)))) as (D' & ED & LD' & CD' & SD').
    rewrite ED. cbn [bind]. pose proof (sp_trans _ _ _ _ SD' (tb_cl x D CD) St) as SD2.
    destruct (IH (S k) D' (c ++ [ck])%list CD' LD' SD2) as (cs & r & E & (Cr & Lr & Sr) & Len & Hc).
    + intros j J. apply K1. lia.
    + intros j J. apply K2. lia.
    + exists (ck :: cs), r. replace (Z.of_nat k + 1) with (Z.of_nat (S k)) by lia. cbn [pred] in E. rewrite E, <- app_assoc. split; [reflexivity|].
      split; [replace (k + S n)%nat with (S k + n)%nat by lia; auto|]. split; [cbn [List.length]; lia|].
      intros [|j] J.
      * exists ck. rewrite Nat.add_0_r. split; [reflexivity|]. split; [exact Ck|]. split; [exact Lk|]. exact (sp_trans _ _ _ _ Sk Cq Sq).
      * destruct (Hc j ltac:(lia)) as (cj & G). exists cj. replace (k + S j)%nat with (S k + j)%nat by lia. exact G.
Qed.

(** ** C84 *)
(** If every part of the expression whose value is a constant fraction is a small one, nothing
    is lost: both builds return the same expression, again over small fractions, with the same
    value wherever the given one has a value. *)
Theorem c84_simplify e : (exists rho, defined rho e) -> frac_expr e ->
  small_constants (fun rho => defined rho e) e ->
  exists z, num_aggregate Debug e = Ok z /\ num_aggregate Release e = Ok z /\ frac_expr z /\
    forall rho v, eval rho e = Some v -> eval rho z = Some v.
Proof.
  intros (rho0 & v0 & V) F K. destruct (agg_simp _ e F K rho0 v0 V) as (z & E & L & C & _). exists z.
  split; [exact (agg_mono Strict Debug I e _ E)|]. split; [exact (agg_mono Strict Release I e _ E)|]. split; [exact (cl_fe z C L)|].
  intros rho v Hv. exact (agg_sound rho e (fe_wf e F) (fe_avoids e F) z v E Hv).
Qed.
Print Assumptions c84_simplify.

(** If the constant parts of the textbook derivative are small, both builds return the same
    derivative, again over small fractions, and its value is the true derivative. *)
Theorem c84_derivative e x : (exists rho, defined rho e) -> frac_expr e ->
  small_constants (fun rho => defined rho e) (textbook x e) ->
  exists d, derivative Debug e (e_var x) = Ok (ROk d) /\ derivative Release e (e_var x) = Ok (ROk d) /\ frac_expr d /\
    forall rho t0, defined (upd rho x t0) e ->
      exists v, eval (upd rho x t0) d = Some v /\ derivable_pt_lim (evalx rho x e) t0 v.
Proof.
  intros (rho0 & v0 & V) F K. pose proof V as V'. rewrite <- (upd_id rho0 x) in V'.
  destruct (deriv_frac (fun rho => defined rho e) x rho0 (rho0 x) e (fe_cl e F) (fe_lits e F) v0 V' (ex_intro _ v0 V') K) as (d & E & L & C & P).
  assert (derivative Strict e (e_var x) = Ok (ROk d)) as Ed by (unfold derivative; cbn [to_variable root e_var]; rewrite E; reflexivity).
  exists d. split; [exact (c29_builds _ _ _ Debug Ed)|]. split; [exact (c29_builds _ _ _ Release Ed)|]. split; [exact (cl_fe d C L)|].
  intros rho t0 D. destruct D as (v & Hv). destruct (tb_correct rho x t0 e (fe_cl e F) v Hv) as (v' & T & _ & G).
  exists v'. split; [exact (simp_value _ _ _ P _ _ (ex_intro _ v Hv) T)|]. apply is_derive_Reals. exact G.
Qed.
Print Assumptions c84_derivative.

(** If the constant parts of the textbook series are small, both builds return the same
    expansion, and its coefficients are the true Taylor coefficients. *)
Theorem c84_taylor e x at_ n : (exists rho, point_dom x at_ e rho) -> frac_expr e -> frac_expr at_ -> small_series x at_ n e ->
  exists t, taylor_expansion Debug e (e_var x) at_ (Z.of_nat n) = Ok (ROk t) /\
    taylor_expansion Release e (e_var x) at_ (Z.of_nat n) = Ok (ROk t) /\
    List.length (ex_coef t) = S n /\
    forall rho a k, eval rho at_ = Some a -> defined (upd rho x a) e -> (k <= n)%nat ->
      exists ck, nth_error (ex_coef t) k = Some ck /\ frac_expr ck /\
        eval rho ck = Some (Derive_n (evalx rho x e) k a / INR (fact k))%R /\ ex_derive_n (evalx rho x e) k a.
Proof.
  intros (rho0 & a0 & A0 & D0) F Fa (K1 & K2). pose proof (fe_cl e F) as C.
  set (Dm := fun rho => defined rho e). assert (opn x Dm) as O by exact (opn_defined x e C). assert (total Dm e) as T by (intros r H; exact H).
  destruct (taylor_frac Dm x at_ rho0 a0 e C O T (fe_cl _ Fa) (fe_lits _ Fa) A0 D0 (S n) 0 e [] C (fe_lits _ F) (sp_refl Dm e)) as (cs & r & E & (Cr & Lr & Sr) & Len & Hc).
  - intros j J. apply K1. lia.
  - intros j J. apply K2. lia.
  - assert (taylor_expansion Strict e (e_var x) at_ (Z.of_nat n) = Ok (ROk (mkExpansion (Z.of_nat n) (e_var x) at_ cs r))) as Et.
    { unfold taylor_expansion, taylor_var. cbn [to_variable root e_var]. replace (Z.to_nat (Z.of_nat n + 1)) with (S n) by lia.
      change (Z.of_nat 0) with 0 in E. change (factZ (pred 0)) with 1 in E. cbn [app] in E. rewrite E. reflexivity. }
    exists (mkExpansion (Z.of_nat n) (e_var x) at_ cs r). split; [exact (taylor_mono Strict Debug I _ _ _ _ _ Et)|]. split; [exact (taylor_mono Strict Release I _ _ _ _ _ Et)|].
    cbn [ex_coef]. split; [exact Len|]. intros rho a k A D Hk. destruct (Hc k ltac:(lia)) as (ck & H1 & H2 & H3 & H4). cbn [Nat.add] in H4.
    exists ck. split; [exact H1|]. split; [exact (cl_fe _ H2 H3)|]. destruct (tbn_value rho x e k C a D) as (V & X). split; [|exact X].
    apply (simp_value _ _ _ H4 rho _ (ex_intro _ a (conj A D))). unfold e_div. rewrite eval_mk2, (eval_subst rho x at_ a _ A), V.
    unfold e_of_i64, e_num. rewrite eval_num, num_R_int. cbn [obind ev2]. unfold factZ. rewrite <- INR_IZR_INZ.
    destruct (Req_EM_T (INR (fact k)) 0) as [Z|_]; [exfalso; exact (INR_fact_neq_0 k Z)|]. reflexivity.
Qed.
Print Assumptions c84_taylor.

(** ** a case that meets the hypotheses: x * (1/1 + 1/2 + ... + 1/20) *)
Fixpoint hq (n : nat) : Q := match n with O => 0%Q | S k => Qred (hq k + inject_Z 1 / inject_Z (Z.of_nat n))%Q end.
Definition small_b (q : Q) : bool := (Z.abs (Qnum q) <? 2 ^ 31) && (Z.pos (Qden q) <? 2 ^ 31).
Lemma small_b_ok q q' : small_b q = true -> Q2R q = Q2R q' -> small_fraction q'.
Proof.
  intros H E. apply eqR_Qeq in E. apply andb_true_iff in H as (H1 & H2). apply Z.ltb_lt in H1, H2.
  exists (Qnum q), (Z.pos (Qden q)). split; [exact H1|]. split; [lia|]. rewrite <- E. destruct q as [p d]. unfold Qeq, Qdiv, Qmult, Qinv, inject_Z. cbn. lia.
Qed.
Lemma const_small (Dm : (string -> R) -> Prop) s q0 : (forall rho, Dm rho) -> small_b q0 = true -> (exists rho, eval rho s = Some (Q2R q0)) -> forall q, constant_on Dm s q -> small_fraction q.
Proof. intros U B (rho & V) q C. apply (small_b_ok q0 q B). exact (C rho _ (U rho) V). Qed.
Lemma harmonic_eval rho n : (Z.of_nat n < 100) -> eval rho (harmonic n) = Some (Q2R (hq n)).
Proof.
  induction n as [|n IH]; intros N; [cbn [harmonic]; rewrite eval_zero; f_equal; unfold Q2R; cbn; lra|]. 
  cbn [harmonic hq]. unfold e_add, e_div. rewrite !eval_mk2, IH by lia.
  change (eval rho e_one) with (eval rho (e_of_i64 1)). unfold e_of_i64, e_num. rewrite !eval_num, !num_R_int. cbn [obind ev2].
  destruct (Req_EM_T (IZR (Z.of_nat (S n))) 0) as [E|_]; [apply eq_IZR_R0 in E; lia|]. cbn [obind].
  f_equal. rewrite (Qeq_eqR _ _ (Qred_correct _)), Q2R_plus, Q2R_div by (unfold Qeq, inject_Z; cbn; lia).
  assert (forall z, Q2R (inject_Z z) = IZR z) as J by (intros z; unfold Q2R, inject_Z; cbn [Qnum Qden]; field).
  rewrite !J. reflexivity.
Qed.
Lemma harmonic_subterm n s : subterm s (harmonic n) -> s = e_zero \/ s = e_one \/
  (exists k, (1 <= k <= n)%nat /\ (s = e_of_i64 (Z.of_nat k) \/ s = e_div e_one (e_of_i64 (Z.of_nat k)))) \/
  exists k, (k <= n)%nat /\ s = harmonic k.
Proof.
  induction n as [|n IH]; intros H; [left; exact (subterm_num s _ H)|]. pose proof H as H'. cbn [harmonic] in H.
  apply subterm_mk2 in H as [-> |[H|H]].
  - right; right; right. exists (S n). split; [lia|reflexivity].
  - destruct (IH H) as [E|[E|[(k & K & E)|(k & K & E)]]]; auto; [right; right; left|right; right; right]; exists k; (split; [lia|exact E]).
  - apply subterm_mk2 in H as [-> |[H|H]].
    + right; right; left. exists (S n). split; [lia|right; reflexivity].
    + right; left. exact (subterm_num s _ H).
    + right; right; left. exists (S n). split; [lia|left; exact (subterm_num s _ H)].
Qed.
Example c84_witness : let e := e_mul (e_var "x") (harmonic 20) in
  frac_expr e /\ (exists rho v, eval rho e = Some v) /\ small_constants (fun rho => defined rho e) e.
Proof.
  cbv zeta. assert (forall rho, defined rho (e_mul (e_var "x") (harmonic 20))) as U.
  { intros rho. eexists. unfold e_mul. rewrite eval_mk2, harmonic_eval by reflexivity. reflexivity. }
  assert (forall z, in_i64 z = true -> Z.abs z < 2 ^ 31 -> frac_expr (e_of_i64 z)) as L.
  { intros z I A. apply (fe_num _ (inject_Z z) (api_number_ok Debug _ (An_i64 Debug z I)) eq_refl). unfold height_num, num_of, den_of. rewrite nval_int. lia. }
  split; [|split].
  - apply fe_mul; [apply fe_var|]. cbn [harmonic]. repeat (first [apply fe_add | apply fe_div | apply L; reflexivity | exact (L 0 eq_refl eq_refl) | exact (L 1 eq_refl eq_refl)]).
  - exists (fun _ => 0%R). eexists. unfold e_mul. rewrite eval_mk2, harmonic_eval by reflexivity. reflexivity.
  - intros s q H C. apply subterm_mk2 in H as [-> |[H|H]].
    + exfalso. pose proof (fun x => C (fun _ => x) (x * Q2R (hq 20))%R) as K. unfold e_mul in K.
      assert (forall x, x * Q2R (hq 20) = Q2R q)%R as G by (intros x; apply K; [apply U|]; rewrite eval_mk2, harmonic_eval by reflexivity; reflexivity).
      pose proof (G 0%R) as G0. pose proof (G 1%R) as G1. assert (Q2R (hq 20) = Q2R 0) as E by (unfold Q2R at 2; cbn [Qnum Qden]; lra).
      apply eqR_Qeq in E. vm_compute in E. discriminate.
    + apply subterm_var in H as ->. exfalso. pose proof (C (fun _ => 0%R) 0%R (U _) eq_refl). pose proof (C (fun _ => 1%R) 1%R (U _) eq_refl). lra.
    + apply harmonic_subterm in H as [-> |[-> |[(k & K & [-> | ->])|(k & K & ->)]]].
      * apply (const_small _ e_zero 0%Q) with (1 := U) (4 := C); [reflexivity|]. exists (fun _ => 0%R). rewrite eval_zero. f_equal. unfold Q2R. cbn. lra.
      * apply (const_small _ e_one 1%Q) with (1 := U) (4 := C); [reflexivity|]. exists (fun _ => 0%R). change e_one with (e_of_i64 1). unfold e_of_i64, e_num. rewrite eval_num, num_R_int. f_equal. unfold Q2R. cbn. lra.
      * apply (const_small _ _ (inject_Z (Z.of_nat k))) with (1 := U) (4 := C).
        -- unfold small_b, inject_Z. cbn [Qnum Qden]. apply andb_true_iff. split; apply Z.ltb_lt; lia.
        -- exists (fun _ => 0%R). unfold e_of_i64, e_num. rewrite eval_num, num_R_int. f_equal. unfold Q2R, inject_Z. cbn [Qnum Qden]. field.
      * apply (const_small _ _ (1 # Pos.of_nat k)) with (1 := U) (4 := C).
        -- unfold small_b. cbn [Qnum Qden]. apply andb_true_iff. split; apply Z.ltb_lt; lia.
        -- exists (fun _ => 0%R). unfold e_div. rewrite eval_mk2. change e_one with (e_of_i64 1). unfold e_of_i64, e_num. rewrite !eval_num, !num_R_int. cbn [obind ev2].
           destruct (Req_EM_T (IZR (Z.of_nat k)) 0) as [E|_]; [apply eq_IZR_R0 in E; lia|]. f_equal. unfold Q2R. cbn [Qnum Qden].
           replace (Z.pos (Pos.of_nat k)) with (Z.of_nat k) by lia. unfold Rdiv. reflexivity.
      * apply (const_small _ _ (hq k)) with (1 := U) (4 := C).
        -- do 21 (destruct k as [|k]; [vm_compute; reflexivity|]). lia.
        -- exists (fun _ => 0%R). apply harmonic_eval. lia.
Qed.

(** ** a test that decides many cases: two assignments of fractions at which every part either
    is a small fraction or takes two values *)
Fixpoint qeval (r : string -> Q) (e : expr) : option Q :=
  match e with
  | Expr (Operand (Num n)) _ => exact_Q n
  | Expr (Operand (Var x)) _ => Some (r x)
  | Expr (Operator op) [a] => match descriptor op, qeval r a with ONeg, Some q => Some (Qopp q) | _, _ => None end
  | Expr (Operator op) [a; b] =>
      match descriptor op, qeval r a, qeval r b with
      | OAdd, Some p, Some q => Some (Qred (p + q))
      | OSub, Some p, Some q => Some (Qred (p - q))
      | OMul, Some p, Some q => Some (Qred (p * q))
      | ODiv, Some p, Some q => if Qeq_bool q 0 then None else Some (Qred (p / q))
      | _, _, _ => None
      end
  | _ => None
  end.
Definition part_ok (r1 r2 : string -> Q) (e : expr) : bool :=
  match qeval r1 e, qeval r2 e with
  | Some p, Some q => negb (Qeq_bool p q) || small_b p
  | _, _ => false
  end.
Fixpoint parts_ok (r1 r2 : string -> Q) (e : expr) : bool :=
  part_ok r1 r2 e &&
  match e with
  | Expr _ [a] => parts_ok r1 r2 a
  | Expr _ [a; b] => parts_ok r1 r2 a && parts_ok r1 r2 b
  | _ => true
  end.
Definition real_of (r : string -> Q) : string -> R := fun x => Q2R (r x).
Lemma qeval_1 r t a : qeval r (mk1 t a) = match t, qeval r a with ONeg, Some q => Some (Qopp q) | _, _ => None end.
Proof. cbn [qeval mk1]. rewrite descriptor_gen. reflexivity. Qed.
Lemma qeval_2 r t a b : qeval r (mk2 t a b) = match t, qeval r a, qeval r b with
      | OAdd, Some p, Some q => Some (Qred (p + q))
      | OSub, Some p, Some q => Some (Qred (p - q))
      | OMul, Some p, Some q => Some (Qred (p * q))
      | ODiv, Some p, Some q => if Qeq_bool q 0 then None else Some (Qred (p / q))
      | _, _, _ => None
      end.
Proof. cbn [qeval mk2]. rewrite descriptor_gen. reflexivity. Qed.
Lemma qeval_R r e : cl e -> lits e -> forall q, qeval r e = Some q -> eval (real_of r) e = Some (Q2R q).
Proof.
  induction 1 as [n O|y|t a T C IH|t a b T Ca IHa Cb IHb]; intros L q Q.
  - destruct (nbd_exact n _ (lits_root n [] L)) as (q' & Q' & R' & _). cbn [qeval e_num] in Q. rewrite Q' in Q. injection Q as <-.
    unfold e_num. rewrite eval_num. exact R'.
  - injection Q as <-. reflexivity.
  - apply lits_mk1 in L. rewrite qeval_1 in Q. destruct t; try discriminate. destruct (qeval r a) as [p|]; [|discriminate]. injection Q as <-.
    rewrite eval_mk1, (IH L p eq_refl). cbn [obind ev1]. f_equal. symmetry. apply Q2R_opp.
  - apply lits_mk2 in L as (La & Lb). rewrite qeval_2 in Q. destruct t; try discriminate;
      (destruct (qeval r a) as [p1|]; [|discriminate]); (destruct (qeval r b) as [p2|]; [|discriminate]);
      rewrite eval_mk2, (IHa La p1 eq_refl), (IHb Lb p2 eq_refl); cbn [obind ev2].
    + assert (q = Qred (p1 + p2)) as -> by congruence. apply f_equal. rewrite (Qeq_eqR _ _ (Qred_correct (p1 + p2))). symmetry. apply Q2R_plus.
    + assert (q = Qred (p1 - p2)) as -> by congruence. apply f_equal. rewrite (Qeq_eqR _ _ (Qred_correct (p1 - p2))). symmetry. apply Q2R_minus.
    + assert (q = Qred (p1 * p2)) as -> by congruence. apply f_equal. rewrite (Qeq_eqR _ _ (Qred_correct (p1 * p2))). symmetry. apply Q2R_mult.
    + destruct (Qeq_bool p2 0) eqn:Z; [discriminate|]. assert (q = Qred (p1 / p2)) as -> by congruence. apply Qeq_bool_neq in Z.
      destruct (Req_EM_T (Q2R p2) 0) as [Y|Y].
      * exfalso. apply Z. apply eqR_Qeq. rewrite Y. unfold Q2R. cbn. lra.
      * apply f_equal. rewrite (Qeq_eqR _ _ (Qred_correct (p1 / p2))). symmetry. apply Q2R_div. exact Z.
Qed.
Lemma parts_small (Dm : (string -> R) -> Prop) r1 r2 e : Dm (real_of r1) -> Dm (real_of r2) -> cl e -> lits e -> parts_ok r1 r2 e = true -> small_constants Dm e.
Proof.
  intros D1 D2 C L P.
  assert (forall s, cl s -> lits s -> part_ok r1 r2 s = true -> forall q, constant_on Dm s q -> small_fraction q) as G.
  { intros s Cs Ls. unfold part_ok. destruct (qeval r1 s) as [p1|] eqn:Q1; [|discriminate]. destruct (qeval r2 s) as [p2|] eqn:Q2; [|discriminate].
    intros B q K. pose proof (K _ _ D1 (qeval_R r1 s Cs Ls p1 Q1)) as E1. pose proof (K _ _ D2 (qeval_R r2 s Cs Ls p2 Q2)) as E2.
    apply orb_true_iff in B as [B|B]; [|exact (small_b_ok p1 q B E1)]. exfalso. apply negb_true_iff, Qeq_bool_neq in B. apply B, eqR_Qeq. lra. }
  induction C as [n O|y|t a T C IH|t a b T Ca IHa Cb IHb]; intros s q S.
  - apply subterm_num in S as ->. apply G; [exact (cl_num n O)|exact L|]. apply andb_true_iff in P. tauto.
  - apply subterm_var in S as ->. apply G; [exact (cl_var y)|exact L|]. apply andb_true_iff in P. tauto.
  - apply andb_true_iff in P as (P1 & P2). pose proof L as L'. apply lits_mk1 in L'. apply subterm_mk1 in S as [-> |S].
    + apply G; [apply cl_1; assumption|exact L|exact P1].
    + exact (IH L' P2 s q S).
  - apply andb_true_iff in P as (P1 & P2). apply andb_true_iff in P2 as (P2 & P3). pose proof L as L'. apply lits_mk2 in L' as (La & Lb). apply subterm_mk2 in S as [-> |[S|S]].
    + apply G; [apply cl_2; assumption|exact L|exact P1].
    + exact (IHa La P2 s q S).
    + exact (IHb Lb P3 s q S).
Qed.

(** x/(2/3 + x*x), expanded around 1/2 to order 2, meets the hypotheses *)
Definition frac_case : expr := e_div (e_var "x") (e_add (e_div (e_of_i64 2) (e_of_i64 3)) (e_mul (e_var "x") (e_var "x"))).
Definition frac_at : expr := e_div (e_of_i64 1) (e_of_i64 2).
Definition at_q (q : Q) : string -> Q := fun _ => q.

Lemma lit_frac z : in_i64 z = true -> Z.abs z < 2 ^ 31 -> frac_expr (e_of_i64 z).
Proof.
  intros I A. apply (fe_num _ (inject_Z z) (api_number_ok Debug _ (An_i64 Debug z I)) eq_refl). unfold height_num, num_of, den_of. rewrite nval_int. lia.
Qed.
Ltac fracs := repeat first [apply fe_add | apply fe_sub | apply fe_mul | apply fe_div | apply fe_neg | apply fe_var | apply lit_frac; reflexivity].
Lemma tb_lits x e : cl e -> lits e -> lits (textbook x e).
Proof.
  induction 1 as [n O|y|t a T C IH|t a b T Ca IHa Cb IHb]; intros L.
  - apply lits_zero.
  - cbn [textbook e_var]. destruct (String.eqb x y); [apply lits_one|apply lits_zero].
  - apply lits_mk1 in L. rewrite tb_1 by exact T. apply lits_raw1; auto.
  - apply lits_mk2 in L as (La & Lb). rewrite tb_2 by exact T. apply lits_raw2; auto.
Qed.
Lemma tbn_lits x k : forall e, cl e -> lits e -> lits (textbook_n x k e).
Proof. induction k as [|k IH]; intros e C L; [exact L|]. exact (IH _ (tb_cl x e C) (tb_lits x e C L)). Qed.

Example c84_series_witness :
  frac_expr frac_case /\ frac_expr frac_at /\ (exists rho, point_dom "x" frac_at frac_case rho) /\
  small_constants (fun rho => defined rho frac_case) (textbook "x" frac_case) /\
  small_series "x" frac_at 2 frac_case.
Proof.
  assert (frac_expr frac_case) as F by (unfold frac_case; fracs). assert (frac_expr frac_at) as Fa by (unfold frac_at; fracs).
  assert (forall q p, qeval (at_q q) frac_case = Some p -> defined (real_of (at_q q)) frac_case) as D.
  { intros q p Q. eexists. exact (qeval_R _ _ (fe_cl _ F) (fe_lits _ F) p Q). }
  assert (forall q, point_dom "x" frac_at frac_case (real_of (at_q q))) as P.
  { intros q. exists (Q2R (1 # 2)). split; [exact (qeval_R (at_q q) _ (fe_cl _ Fa) (fe_lits _ Fa) (1 # 2) eq_refl)|].
    pose (r := fun y => if String.eqb y "x" then 1 # 2 else q).
    replace (upd (real_of (at_q q)) "x" (Q2R (1 # 2))) with (real_of r).
    - eexists. exact (qeval_R r _ (fe_cl _ F) (fe_lits _ F) _ eq_refl).
    - apply functional_extensionality. intros y. unfold upd, real_of, r, at_q. destruct (String.eqb y "x"); reflexivity. }
  assert (forall k, (k <= 3)%nat -> small_constants (fun rho => defined rho frac_case) (textbook_n "x" k frac_case)) as K.
  { intros k Hk. apply (parts_small _ (at_q (1 # 2)) (at_q (1 # 3))); [exact (D (1 # 2) _ eq_refl)|exact (D (1 # 3) _ eq_refl)|apply tbn_cl, fe_cl, F|apply tbn_lits; [apply fe_cl, F|apply fe_lits, F]|].
    do 4 (destruct k as [|k]; [vm_compute; reflexivity|]). lia. }
  split; [exact F|]. split; [exact Fa|]. split; [exists (real_of (at_q 0)); apply P|]. split; [exact (K 1%nat ltac:(lia))|]. split; [intros k Hk; apply K; lia|].
  intros k Hk. apply (parts_small _ (at_q (1 # 2)) (at_q (1 # 3))); [apply P|apply P|..].
  - apply cl_2; [unfold u2; auto|apply cl_subst; [apply fe_cl, Fa|apply tbn_cl, fe_cl, F]|].
    do 3 (destruct k as [|k]; [apply fe_cl, lit_frac; reflexivity|]). lia.
  - apply lits_mk2. split; [apply lits_subst; [apply fe_lits, Fa|apply tbn_cl, fe_cl, F|apply tbn_lits; [apply fe_cl, F|apply fe_lits, F]]|].
    do 3 (destruct k as [|k]; [apply fe_lits, lit_frac; reflexivity|]). lia.
  - do 3 (destruct k as [|k]; [vm_compute; reflexivity|]). lia.
Qed.

(** small literals alone are not enough: with s = 1/2147483647 + 1/2147483629, the debug build
    panics on s*s *)
Theorem c84_bound_needed : let s := e_add (e_div (e_of_i64 1) (e_of_i64 2147483647)) (e_div (e_of_i64 1) (e_of_i64 2147483629)) in
  frac_expr (e_mul s s) /\ (exists rho, defined rho (e_mul s s)) /\ num_aggregate Debug (e_mul s s) = Panic.
Proof.
  cbv zeta. match goal with |- frac_expr ?e /\ _ => assert (frac_expr e) as F by fracs end. split; [exact F|].
  split; [|vm_compute; reflexivity]. exists (real_of (at_q 0)). eexists. exact (qeval_R (at_q 0) _ (fe_cl _ F) (fe_lits _ F) _ eq_refl).
Qed.
Print Assumptions c84_bound_needed.
