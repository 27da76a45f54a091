(** * PropsUndef: num_aggregate keeps undefinedness when it drops no undefined operand (C22) *)
From Coq Require Import ZArith QArith List String Bool Lia Lra.
From Coq Require Import Reals Qreals.
From Coq Require Import Floats.SpecFloat.
From Verif Require Import Base Float Rational SmartNum Ast Compute Spec SpecTree SpecR SpecUndef.
From Verif Require Import BaseProofs NumProofs NumProofs2 TreeProofs TreeProofs2 TreeProofs3 TreeProofs4.
From Verif Require Import RealProofs.
Import ListNotations.
Open Scope R_scope.
Open Scope res_scope.

(** ** numbers without a value *)
Lemma f_val_zero f q : f_val f = Some q -> (q == 0)%Q -> exists s, f = S754_zero s.
Proof.
  intros H E. destruct f as [s|s| |s m e]; try discriminate; [eauto|].
  destruct (f_val_finite s m e) as (q' & H' & K). rewrite H in H'. injection H' as <-.
  destruct s; rewrite E in K; exfalso; eapply Qlt_irrefl; exact K.
Qed.

Lemma m_div_zero x y q r : f_val y = Some q -> (q == 0)%Q -> m_div Strict x y = Ok r -> False.
Proof.
  intros H E H1. apply f_val_zero in H as [s ->]; [|assumption].
  apply trap_unless_strict in H1 as [H1 _]. apply exact2_ok in H1 as (a & b & c & Ha & _ & Hc & _).
  destruct x as [s'|s'| |s' m e]; cbn in Ha; try discriminate; cbn in Hc; discriminate.
Qed.

Lemma rat_to_f64_den0 r f : rden r = 0%Z -> rat_to_f64 Strict r = Ok f -> False.
Proof.
  intros D H. unfold rat_to_f64 in H. do 4 inv_bind H. rewrite D in *.
  match goal with K : m_of_Z Strict 0 = Ok _ |- _ => apply m_of_Z_strict in K as (q & F & E) end.
  eapply m_div_zero; [exact F|rewrite E; reflexivity|exact H].
Qed.

Lemma num_R_none x : num_R x = None -> approx x = false /\ val_Q (nval x) = None.
Proof.
  unfold num_R, approx, sn_is_pi, sn_is_e.
  destruct (ntag x); cbn; try discriminate; destruct (val_Q (nval x)); cbn; try discriminate; auto.
Qed.

Lemma val_Q_none_num v : val_Q v = None -> num_R (wrap_val v) = None.
Proof.
  intros H. rewrite num_R_exact by apply approx_wrap. unfold wrap_val.
  destruct v as [z|r|f]; cbn [val_Q] in H; [discriminate| |].
  - destruct (Z.eqb_spec (rden r) 0) as [D|]; [|discriminate].
    cbn. rewrite D. cbn. rewrite !andb_false_r. cbn. rewrite D. reflexivity.
  - cbn. rewrite H. reflexivity.
Qed.

Lemma none_not_zero x : num_ok x -> num_R x = None -> sn_is_zero x = false /\ sn_is_one x = false.
Proof.
  intros Hx H. apply num_R_none in H as [_ H].
  rewrite is_zero_val, is_one_val by assumption.
  destruct (nval x) as [z|r|f]; cbn [val_Q] in H; [discriminate| |split; reflexivity].
  destruct (Z.eqb_spec (rden r) 0) as [D|]; [|discriminate].
  cbn. rewrite D. cbn. rewrite !andb_false_r. split; reflexivity.
Qed.

Lemma den0_none r : rden r = 0%Z -> val_Q (Rational r) = None.
Proof. intros D. cbn. rewrite D. reflexivity. Qed.
Lemma none_den0 r : val_Q (Rational r) = None -> rden r = 0%Z.
Proof. cbn. destruct (Z.eqb_spec (rden r) 0); [auto|discriminate]. Qed.

Definition opval (t : optype) (a b : val) : res val :=
  match t with
  | OAdd => val_add Strict a b
  | OSub => val_sub Strict a b
  | _ => val_mul Strict a b
  end.

Ltac rat_none D :=
  apply den0_none;
  match goal with
  | H : rat_add _ _ _ = Ok _ |- _ => eapply rat_add_den0; [exact H|rewrite D; ring]
  | H : rat_sub _ _ _ = Ok _ |- _ => eapply rat_sub_den0; [exact H|rewrite D; ring]
  | H : rat_mul _ _ _ = Ok _ |- _ => eapply rat_mul_den0; [exact H|rewrite D; ring]
  end.

Ltac m_none :=
  exfalso;
  repeat match goal with
  | H : m_add Strict _ _ = Ok _ |- _ => apply m_add_strict in H; destruct H as (? & ? & ? & ? & ? & ? & ?)
  | H : m_sub Strict _ _ = Ok _ |- _ => apply m_sub_strict in H; destruct H as (? & ? & ? & ? & ? & ? & ?)
  | H : m_mul Strict _ _ = Ok _ |- _ => apply m_mul_strict in H; destruct H as (? & ? & ? & ? & ? & ? & ?)
  | H : m_div Strict _ _ = Ok _ |- _ => apply m_div_strict in H; destruct H as (? & ? & ? & ? & ? & ? & ?)
  end;
  first [ congruence | eapply rat_to_f64_den0; eassumption ].

Lemma opval_none t a b v : t = OAdd \/ t = OSub \/ (t = OMul /\ val_is_zero a || val_is_zero b = false) ->
  val_Q a = None \/ val_Q b = None -> opval t a b = Ok v -> val_Q v = None.
Proof.
  intros Ht Hn H.
  assert (match t with OAdd => val_add Strict a b | OSub => val_sub Strict a b
          | _ => val_mul Strict a b end = Ok v) as H' by exact H. clear H.
  destruct Ht as [->|[->|[-> Hz]]]; [| |unfold val_mul in H'; rewrite Hz in H'];
  destruct a as [i|i|i], b as [j|j|j]; cbn [val_add val_sub] in H'; inv_all H';
  (destruct Hn as [Hn|Hn]; [try discriminate Hn|try discriminate Hn]);
  (apply none_den0 in Hn || (cbn [val_Q] in Hn));
  first [rat_none Hn | m_none].
Qed.

Lemma rat_div_den0' m x y z : rat_inv x -> rat_inv y -> rat_div m x y = Ok z ->
  (rden x * rnum y = 0)%Z -> rden z = 0%Z.
Proof.
  intros Hx Hy H E. unfold rat_div, u64_mul, i64_mul in H. do 3 inv_bind H. injection H as <-.
  rewrite E in Hb1. rewrite ovf_u64_in in Hb1 by (unfold two64; lia).
  injection Hb1 as <-. apply reduce_den0. apply ovf_u64_ok in Hb0. lia.
Qed.

Lemma zero_rnum r q : val_inv (Rational r) -> val_Q (Rational r) = Some q -> (q == 0)%Q -> rnum r = 0%Z.
Proof.
  intros Hi H E. apply val_Q_rat in H as [(Hs & Hn & Hd) ->]; [|assumption].
  unfold ratQ, Qeq in E. cbn [Qnum Qden] in E. nia.
Qed.

Lemma zero_int z q : val_Q (Integer z) = Some q -> (q == 0)%Q -> z = 0%Z.
Proof. cbn. intros [= <-] E. unfold Qeq, inject_Z in E. cbn in E. lia. Qed.

Lemma val_div_none a b v : val_inv a -> val_inv b -> val_is_zero a = false ->
  val_Q b <> None -> (val_Q a = None \/ exists q, val_Q b = Some q /\ (q == 0)%Q) ->
  val_div Strict a b = Ok v -> val_Q v = None.
Proof.
  intros Ia Ib Hz Hb0 Hn H. unfold val_div in H. rewrite Hz in H.
  destruct a as [i|i|i], b as [j|j|j]; inv_all H;
  (destruct Hn as [Hn|(q & Hq & E)]; [try discriminate Hn|]);
  repeat match goal with
  | K : rat_of_i64 Strict _ = Ok _ |- _ => apply rat_of_i64_full in K as (? & ? & ?); [|assumption]
  end;
  try (apply none_den0 in Hn || (cbn [val_Q] in Hn));
  try match goal with
  | K : rat_div _ _ _ = Ok _ |- _ => apply den0_none; eapply rat_div_den0'; [| |exact K|];
      [first [assumption|apply Ia]|first [assumption|apply Ib]|]
  end;
  first
  [ rewrite Hn; ring
  | pose proof (zero_int _ _ Hq E); subst; match goal with K : rnum _ = Z.abs 0 |- _ => rewrite K; cbn; ring end
  | rewrite (zero_rnum _ _ Ib Hq E); ring
  | exfalso; eapply rat_to_f64_den0; eassumption
  | exfalso; match goal with K : m_div Strict _ _ = Ok _ |- _ => apply m_div_strict in K as (? & ? & ? & ? & ? & ? & ?) end; congruence
  | exfalso; match goal with K : m_div Strict _ ?y = Ok _ |- _ => eapply (m_div_zero _ y q); [exact Hq|exact E|exact K] end
  | exfalso; match goal with K : m_of_Z Strict j = Ok ?y, K' : m_div Strict _ ?y = Ok _ |- _ =>
      pose proof (zero_int _ _ Hq E); subst; apply m_of_Z_strict in K as (c & F & E');
      eapply (m_div_zero _ y c); [exact F|rewrite E'; reflexivity|exact K'] end
  | exfalso; match goal with K : rat_to_f64 Strict j = Ok ?y, K' : m_div Strict _ ?y = Ok _ |- _ =>
      destruct (val_Q_rat _ _ Ib Hq) as [V ->]; apply (rat_to_f64_strict _ _ V) in K as (c & F & E');
      eapply (m_div_zero _ y c); [exact F|rewrite E', E; reflexivity|exact K'] end ].
Qed.

(** ** numbers: the four operations *)
Lemma num_none_neg x z : num_R x = None -> sn_neg Strict x = Ok z -> num_R z = None.
Proof.
  intros Hx H. apply num_R_none in Hx as [_ Hx]. unfold sn_neg in H. inv_all H.
  apply guard_strict in Hb as [_ Hb]. apply val_Q_none_num.
  destruct (nval x) as [i|i|i]; [discriminate Hx| |]; cbn [val_neg] in Hb; inv_all Hb.
  - apply none_den0 in Hx. apply den0_none. unfold rat_neg in Hb0. inv_all Hb0. exact Hx.
  - destruct i; try discriminate Hx; reflexivity.
Qed.

Lemma num_none_op t x y z : num_ok x -> num_ok y ->
  t = OAdd \/ t = OSub \/ (t = OMul /\ sn_is_zero x = false /\ sn_is_zero y = false) ->
  num_R x = None \/ num_R y = None -> sn_op Strict t x y = Ok z -> num_R z = None.
Proof.
  intros Hx Hy Ht Hn H.
  assert (forall w, num_ok w -> sn_is_zero w = true -> num_R w <> None) as K0.
  { intros w Hw K E. destruct (none_not_zero w Hw E). congruence. }
  assert (forall w, num_ok w -> sn_is_one w = true -> num_R w <> None) as K1.
  { intros w Hw K E. destruct (none_not_zero w Hw E). congruence. }
  assert (forall a b, (a || b) = false -> num_R x = None \/ num_R y = None -> approx x || approx y = false ->
     val_Q (nval x) = None \/ val_Q (nval y) = None) as KQ.
  { intros _ _ _ [K|K] _; apply num_R_none in K as [_ K]; auto. }
  destruct Ht as [->|[->|(-> & Zx & Zy)]]; cbn [sn_op] in H.
  - unfold sn_add in H. destruct (sn_is_zero x) eqn:Zx; [|destruct (sn_is_zero y) eqn:Zy].
    + injection H as <-. destruct Hn as [Hn|Hn]; [destruct (K0 x Hx Zx Hn)|assumption].
    + injection H as <-. destruct Hn as [Hn|Hn]; [assumption|destruct (K0 y Hy Zy Hn)].
    + inv_all H. apply guard_strict in Hb as [G Hb]. apply val_Q_none_num.
      apply (opval_none OAdd _ _ _ (or_introl eq_refl) (KQ _ _ G Hn G) Hb).
  - unfold sn_sub in H. destruct (sn_is_zero x) eqn:Zx; [|destruct (sn_is_zero y) eqn:Zy].
    + destruct Hn as [Hn|Hn]; [destruct (K0 x Hx Zx Hn)|]. exact (num_none_neg _ _ Hn H).
    + injection H as <-. destruct Hn as [Hn|Hn]; [assumption|destruct (K0 y Hy Zy Hn)].
    + inv_all H. apply guard_strict in Hb as [G Hb]. apply val_Q_none_num.
      apply (opval_none OSub _ _ _ (or_intror (or_introl eq_refl)) (KQ _ _ G Hn G) Hb).
  - unfold sn_mul in H. destruct (sn_is_one x) eqn:Ux; [|destruct (sn_is_one y) eqn:Uy].
    + injection H as <-. destruct Hn as [Hn|Hn]; [destruct (K1 x Hx Ux Hn)|assumption].
    + injection H as <-. destruct Hn as [Hn|Hn]; [assumption|destruct (K1 y Hy Uy Hn)].
    + inv_all H. apply guard_strict in Hb as [G Hb]. apply val_Q_none_num.
      rewrite is_zero_val in Zx, Zy by assumption.
      rewrite Zx, Zy in G. cbn [orb negb] in G. rewrite andb_true_r in G.
      refine (opval_none OMul _ _ _ (or_intror (or_intror (conj eq_refl _))) (KQ _ _ G Hn G) Hb).
      rewrite Zx, Zy. reflexivity.
Qed.

Lemma num_R_zero_Q y w : num_ok y -> num_R y = Some w -> w = 0 ->
  exists q, val_Q (nval y) = Some q /\ (q == 0)%Q.
Proof.
  intros Hy H ->. destruct (approx y) eqn:A.
  - exfalso. unfold num_R, approx, sn_is_pi, sn_is_e in *. destruct (ntag y); try discriminate A; injection H as H.
    + pose proof PI_RGT_0. lra.
    + pose proof (exp_pos 1). lra.
  - apply num_R_Q in H as (q & Hq & E); [|assumption]. exists q. split; [assumption|].
    apply eqR_Qeq. rewrite <- E. unfold Q2R. cbn. lra.
Qed.

Lemma num_none_div x y z : num_ok x -> num_ok y -> sn_is_zero x = false -> num_R y <> None ->
  num_R x = None \/ num_R y = Some 0 -> sn_div Strict x y = Ok z -> num_R z = None.
Proof.
  intros Hx Hy Zx Hy0 Hn H. unfold sn_div in H. inv_all H. apply guard_strict in Hb as [G Hb].
  rewrite is_zero_val in Zx by assumption. rewrite Zx in G. cbn [negb] in G. rewrite andb_true_r in G.
  apply orb_false_iff in G as [_ Gy]. apply val_Q_none_num.
  refine (val_div_none _ _ _ (proj1 Hx) (proj1 Hy) Zx _ _ Hb).
  - rewrite num_R_exact in Hy0 by assumption. intros E. apply Hy0. rewrite E. reflexivity.
  - destruct Hn as [Hn|Hn]; [left; apply num_R_none in Hn as [_ Hn]; exact Hn|right].
    exact (num_R_zero_Q _ _ Hy Hn eq_refl).
Qed.

(** ** one rule *)
Lemma ar1_eval rho t a z : wf a -> ar1 Strict t a z ->
  (t = OCos -> is_pi a = false) ->
  (forall u, t = OExp -> a = e_ln u -> eval rho a <> None) ->
  eval rho z = obind (eval rho a) (ev1 t).
Proof.
  intros W H Hcos Hexp.
  destruct (eval rho a) as [u|] eqn:Hu; [destruct (ev1 t u) as [v|] eqn:Hv|]; cbn [obind].
  - rewrite Hv. exact (ar1_sound rho t a z u v W H Hcos Hu Hv).
  - rewrite Hv. destruct H; try discriminate Hv; cbn [ev1] in Hv.
    + rewrite (eval_is_e _ _ _ H Hu) in Hv. pose proof (exp_pos 1).
      destruct (Rlt_dec 0 (exp 1)); [discriminate|lra].
    + rewrite (eval_is_one _ _ _ W H0 Hu) in Hv. destruct (Rlt_dec 0 1); [discriminate|lra].
    + destruct (wf_last1 op r c ltac:(rewrite H; reflexivity) W) as (-> & E & Wc).
      rewrite E, H in Hu. apply eval1_inv in Hu as (w & Hw & Hu). cbn in Hu. injection Hu as <-.
      pose proof (exp_pos w). destruct (Rlt_dec 0 (exp w)); [discriminate|lra].
    + unfold e_ln. rewrite eval_mk1, Hu. exact Hv.
  - assert (is_zero a = true -> False) as Z0.
    { intros Hz. apply is_zero_inv in Hz as (n & c & -> & Hz). apply wf_num_inv in W as [Hn ->].
      rewrite eval_num in Hu. destruct (none_not_zero n Hn Hu). congruence. }
    assert (is_one a = true -> False) as Z1.
    { intros Hz. apply is_one_inv in Hz as (n & c & -> & Hz). apply wf_num_inv in W as [Hn ->].
      rewrite eval_num in Hu. destruct (none_not_zero n Hn Hu). congruence. }
    assert (is_pi a = true -> False) as Zp.
    { intros Hz. apply is_pi_inv in Hz as (n & c & -> & Hz).
      cbn [eval] in Hu. unfold num_R, sn_is_pi in *. destruct (ntag n); discriminate. }
    assert (is_e a = true -> False) as Ze.
    { intros Hz. apply is_e_inv in Hz as (n & c & -> & Hz).
      cbn [eval] in Hu. unfold num_R, sn_is_e in *. destruct (ntag n); discriminate. }
    destruct H;
    try (apply orb_true_iff in H as [H|H]); try (now destruct (Z0 ltac:(assumption)));
    try (now destruct (Z1 ltac:(assumption))); try (now destruct (Zp ltac:(assumption)));
    try (now destruct (Ze ltac:(assumption)));
    try (unfold e_neg, e_sin, e_cos, e_exp, e_ln; rewrite eval_mk1, Hu; reflexivity).
    + apply wf_num_inv in W as [Hn ->]. rewrite eval_num in Hu.
      change (num_R v = None). exact (num_none_neg _ _ Hu H).
    + destruct (wf_last1 op r c ltac:(rewrite H; reflexivity) W) as (-> & E & Wc).
      rewrite E, H, eval_mk1 in Hu. destruct (eval rho c); [discriminate|reflexivity].
    + destruct (wf_last1 op r c ltac:(rewrite H; reflexivity) W) as (-> & E & Wc).
      rewrite H in E. destruct (Hexp c eq_refl E eq_refl).
    + destruct (wf_last1 op r c ltac:(rewrite H; reflexivity) W) as (-> & E & Wc).
      rewrite E, H, eval_mk1 in Hu. destruct (eval rho c); [discriminate|reflexivity].
Qed.

Lemma ar2_eval rho t l r z : wf l -> wf r -> ar2 Strict t l r z ->
  (t = OPow -> is_zero l = false /\ is_one l = false /\ root_is OLn l = false) ->
  (t = OMul -> is_zero l = true -> eval rho r <> None) ->
  (t = OMul -> is_zero r = true -> eval rho l <> None) ->
  (t = ODiv -> is_zero l = true -> exists w, eval rho r = Some w /\ w <> 0) ->
  (t = ODiv -> is_num r = true -> eval rho r <> None) ->
  eval rho z = obind (eval rho l) (fun u => obind (eval rho r) (ev2 t u)).
Proof.
  intros Wl Wr H Hpow Hml Hmr Hd0 Hdn.
  destruct (obind (eval rho l) (fun u => obind (eval rho r) (ev2 t u))) as [v|] eqn:Hv.
  { destruct (eval rho l) as [u|] eqn:Hu; [|discriminate]. cbn [obind] in Hv.
    destruct (eval rho r) as [w|] eqn:Hw; [|discriminate]. cbn [obind] in Hv.
    exact (ar2_sound rho t l r z u w v Wl Wr H Hpow Hu Hw Hv). }
  assert (forall a, wf a -> is_zero a = true \/ is_one a = true -> exists u, eval rho a = Some u) as Z.
  { intros a W Hz. destruct (eval rho a) as [u|] eqn:E; [eauto|exfalso].
    destruct Hz as [Hz|Hz]; [apply is_zero_inv in Hz as (n & c & -> & Hz)|apply is_one_inv in Hz as (n & c & -> & Hz)];
    apply wf_num_inv in W as [Hn ->]; rewrite eval_num in E; destruct (none_not_zero n Hn E); congruence. }
  destruct H;
  try (unfold e_add, e_sub, e_mul, e_div, e_pow; rewrite eval_mk2; exact Hv);
  try match goal with K : is_zero l = true |- _ => destruct (Z l Wl (or_introl K)) as [u Hu]; rewrite Hu in Hv; cbn [obind] in Hv end;
  try match goal with K : is_zero r = true |- _ => destruct (Z r Wr (or_introl K)) as [w Hw]; rewrite Hw in Hv; cbn [obind] in Hv end;
  try match goal with K : is_one l = true |- _ => destruct (Z l Wl (or_intror K)) as [u Hu]; rewrite Hu in Hv; cbn [obind] in Hv end;
  try match goal with K : is_one r = true |- _ => destruct (Z r Wr (or_intror K)) as [w Hw]; rewrite Hw in Hv; cbn [obind] in Hv end.
  - (* two numbers *)
    apply wf_num_inv in Wl as [Hx ->], Wr as [Hy ->]. rewrite !eval_num in *.
    change (num_R v = None).
    assert (t = ODiv \/ t <> ODiv) as [Ht|Ht] by (destruct t; (left; reflexivity) || (right; discriminate)).
    + subst t. cbn [sn_op] in H0.
      destruct (sn_is_zero x) eqn:Zx.
      { exfalso. destruct (Hd0 eq_refl Zx) as (w & Hw & Hw0). rewrite Hw in Hv.
        destruct (Z (Expr (Operand (Num x)) []) (wf_num' _ Hx) (or_introl Zx)) as [u Hu].
        rewrite eval_num in Hu. rewrite Hu in Hv. cbn in Hv. destruct (Req_EM_T w 0); [contradiction|discriminate]. }
      apply (num_none_div x y v Hx Hy Zx (Hdn eq_refl eq_refl)); [|exact H0].
      destruct (num_R x) as [u|]; [right|left; reflexivity]. cbn [obind] in Hv.
      destruct (num_R y) as [w|] eqn:Hw; [|destruct (Hdn eq_refl eq_refl eq_refl)]. cbn in Hv.
      destruct (Req_EM_T w 0) as [->|]; [reflexivity|discriminate].
    + apply (num_none_op t x y v Hx Hy); [| |exact H0].
      * destruct H as [H|[H|[H|H]]]; [auto|auto| |congruence]. right; right. split; [assumption|].
        subst t. split.
        -- destruct (sn_is_zero x) eqn:Zx; [exfalso|reflexivity].
           destruct (Z (Expr (Operand (Num x)) []) (wf_num' _ Hx) (or_introl Zx)) as [u Hu].
           rewrite eval_num in Hu. rewrite Hu in Hv.
           destruct (num_R y) eqn:E; [discriminate|]. exact (Hml eq_refl Zx eq_refl).
        -- destruct (sn_is_zero y) eqn:Zy; [exfalso|reflexivity].
           destruct (Z (Expr (Operand (Num y)) []) (wf_num' _ Hy) (or_introl Zy)) as [u Hu].
           rewrite eval_num in Hu. rewrite Hu in Hv.
           destruct (num_R x) eqn:E; [discriminate|]. exact (Hmr eq_refl Zy eq_refl).
      * destruct (num_R x) as [u|]; [right|left; reflexivity]. cbn [obind] in Hv.
        destruct (num_R y) as [w|]; [exfalso|reflexivity]. cbn [obind] in Hv.
        destruct H as [->|[->|[->| ->]]]; cbn in Hv; try discriminate. congruence.
  - destruct (eval rho r); [discriminate|reflexivity].
  - destruct (eval rho l); [discriminate|reflexivity].
  - unfold e_neg. rewrite eval_mk1. destruct (eval rho r); [discriminate|reflexivity].
  - destruct (eval rho l); [discriminate|reflexivity].
  - exfalso. apply orb_true_iff in H0 as [H0|H0].
    + destruct (Z l Wl (or_introl H0)) as [u Hu]. rewrite Hu in Hv. cbn [obind] in Hv.
      destruct (eval rho r) eqn:E; [discriminate|]. exact (Hml eq_refl H0 eq_refl).
    + destruct (Z r Wr (or_introl H0)) as [u Hu]. rewrite Hu in Hv.
      destruct (eval rho l) eqn:E; [discriminate|]. exact (Hmr eq_refl H0 eq_refl).
  - destruct (eval rho r); [discriminate|reflexivity].
  - destruct (eval rho l); [discriminate|reflexivity].
  - exfalso. destruct (Hd0 eq_refl H0) as (w & Hw & Hw0). rewrite Hw in Hv. cbn in Hv.
    destruct (Req_EM_T w 0); [contradiction|discriminate].
  - destruct (Hpow eq_refl) as (K & _ & _). congruence.
  - destruct (Hpow eq_refl) as (_ & K & _). congruence.
  - destruct (Hpow eq_refl) as (_ & _ & K). unfold root_is in K. cbn [root] in K. rewrite H in K. discriminate.
Qed.

Lemma keeps_sub rho e s : keeps_domain rho e -> subterm s e -> keeps_domain rho s.
Proof.
  intros (H1 & H2 & H3) Hs. split; [|split].
  - intros a b K. apply H1. eapply subterm_trans; eassumption.
  - intros a b K. apply H2. eapply subterm_trans; eassumption.
  - intros a u K. apply H3. eapply subterm_trans; eassumption.
Qed.

(** ** C22 *)

(** Away from the wrong power and cosine rules (C21) and from dropped undefined operands, the
    simplified expression has exactly the value of the input, and none where the input has none. *)
Theorem c22_same_domain rho e z : wf e -> avoids_bad_rules e -> keeps_domain rho e ->
  num_aggregate Strict e = Ok z -> eval rho z = eval rho e.
Proof.
  intros W. revert z. pattern e. revert e W. apply wf_ind1.
  - intros n _ z _ _ [= <-]. reflexivity.
  - intros x z _ _ [= <-]. reflexivity.
  - intros t a Ha Wa IH z Hg Hk H. rewrite agg_mk1 in H by assumption. inv_bind H.
    apply rule1_ar in H; [|assumption]. rewrite eval_mk1.
    pose proof (IH _ (avoids_sub _ _ Hg (sub_mk1 _ _)) (keeps_sub _ _ _ Hk (sub_mk1 _ _)) Hb) as E.
    rewrite <- E. apply ar1_eval; [exact (agg_wf _ _ _ Wa Hb)|exact H| |].
    + intros ->. apply (proj2 Hg) with a; [constructor|exact Hb].
    + intros u -> ->. rewrite E. destruct (proj2 (proj2 Hk) a u (sub_refl _) Hb) as [v ->]. discriminate.
  - intros t a b Ha Wa Wb IHa IHb z Hg Hk H. rewrite agg_mk2 in H by assumption. do 2 inv_bind H.
    apply rule2_ar in H; [|assumption]. rewrite eval_mk2.
    pose proof (IHa _ (avoids_sub _ _ Hg (sub_mk2_l _ _ _)) (keeps_sub _ _ _ Hk (sub_mk2_l _ _ _)) Hb0) as Ea.
    pose proof (IHb _ (avoids_sub _ _ Hg (sub_mk2_r _ _ _)) (keeps_sub _ _ _ Hk (sub_mk2_r _ _ _)) Hb) as Eb.
    pose proof (agg_wf _ _ _ Wa Hb0) as Wa1. pose proof (agg_wf _ _ _ Wb Hb) as Wb1.
    rewrite <- Ea, <- Eb. apply ar2_eval; [exact Wa1|exact Wb1|exact H| | | | |].
    + intros ->. destruct (proj1 Hg a b a1 (sub_refl _) Hb0) as (K1 & K2 & K3).
      split; [assumption|]. split; [assumption|]. apply root_is_ln; assumption.
    + intros -> K. rewrite Eb. destruct (proj1 (proj1 Hk a b (sub_refl _)) (ex_intro _ a1 (conj Hb0 K))) as [v ->].
      discriminate.
    + intros -> K. rewrite Ea. destruct (proj2 (proj1 Hk a b (sub_refl _)) (ex_intro _ _ (conj Hb K))) as [v ->].
      discriminate.
    + intros -> K. rewrite Eb. exact (proj1 (proj1 (proj2 Hk) a b (sub_refl _)) (ex_intro _ a1 (conj Hb0 K))).
    + intros -> K. rewrite Eb. apply is_num_inv in K as (n & k & ->).
      destruct (wf_num_inv _ _ Wb1) as [_ ->].
      destruct (proj2 (proj1 (proj2 Hk) a b (sub_refl _)) (ex_intro _ n Hb)) as [v ->]. discriminate.
Qed.
Print Assumptions c22_same_domain.

(** so a number that has a value is the value of the input, which has one *)
Theorem c22_number_is_value rho e n v : wf e -> avoids_bad_rules e -> keeps_domain rho e ->
  num_aggregate Strict e = Ok (e_num n) -> num_R n = Some v -> eval rho e = Some v.
Proof.
  intros W Hg Hk H Hn. rewrite <- (c22_same_domain rho e _ W Hg Hk H). exact Hn.
Qed.
Print Assumptions c22_number_is_value.

(** and each of the guards is needed: broken at the root of [e], the result has a value and
    the input has none *)
Theorem c22_guards_needed rho a b : wf a -> wf b ->
  (forall b', becomes_0 a -> becomes b b' -> ~ defined rho b -> is_num b' = false ->
     exists z, num_aggregate Strict (e_mul a b) = Ok z /\ eval rho z = Some 0 /\ eval rho (e_mul a b) = None) /\
  (forall a', becomes_0 b -> becomes a a' -> ~ defined rho a -> is_num a' = false ->
     exists z, num_aggregate Strict (e_mul a b) = Ok z /\ eval rho z = Some 0 /\ eval rho (e_mul a b) = None) /\
  (forall b', becomes_0 a -> becomes b b' -> ~ (exists w, eval rho b = Some w /\ w <> 0) -> is_num b' = false ->
     exists z, num_aggregate Strict (e_div a b) = Ok z /\ eval rho z = Some 0 /\ eval rho (e_div a b) = None) /\
  (forall u, becomes a (e_ln u) -> ~ defined rho a ->
     num_aggregate Strict (e_exp a) = Ok u /\ eval rho (e_exp a) = None).
Proof.
  intros Wa Wb. unfold becomes_0, becomes, defined.
  assert (forall e, ~ (exists v, eval rho e = Some v) -> eval rho e = None) as N.
  { intros e H. destruct (eval rho e); [exfalso; eauto|reflexivity]. }
  split; [|split; [|split]].
  - intros b' (a' & Ha & Z) Hb Hn Hnum. exists e_zero.
    unfold e_mul. rewrite agg_mk2 by reflexivity. rewrite Ha, Hb.
    split; [|split; [apply eval_zero|rewrite eval_mk2, (N _ Hn); destruct (eval rho a); reflexivity]].
    destruct (is_zero_inv _ Z) as (n & c & -> & Zn). cbn [bind]. cbn.
    rewrite Hnum. cbn. unfold is_zero. cbn. rewrite Zn. reflexivity.
  - intros a' (b' & Hb & Z) Ha Hn Hnum. exists e_zero.
    unfold e_mul. rewrite agg_mk2 by reflexivity. rewrite Ha, Hb.
    split; [|split; [apply eval_zero|rewrite eval_mk2, (N _ Hn); reflexivity]].
    destruct (is_zero_inv _ Z) as (n & c & -> & Zn). cbn [bind]. cbn.
    rewrite Hnum. cbn. unfold is_zero. cbn. rewrite Zn, orb_true_r. reflexivity.
  - intros b' (a' & Ha & Z) Hb Hn Hnum. exists e_zero.
    unfold e_div. rewrite agg_mk2 by reflexivity. rewrite Ha, Hb.
    split; [|split; [apply eval_zero|]].
    + destruct (is_zero_inv _ Z) as (n & c & -> & Zn). cbn [bind]. cbn.
      rewrite Hnum. cbn. unfold is_zero. cbn. rewrite Zn. reflexivity.
    + rewrite eval_mk2. destruct (eval rho a); [|reflexivity]. cbn [obind].
      destruct (eval rho b) as [w|]; [|reflexivity]. cbn.
      destruct (Req_EM_T w 0); [reflexivity|exfalso; eauto].
  - intros u Ha Hn. split.
    + unfold e_exp. rewrite agg_mk1 by reflexivity. rewrite Ha. reflexivity.
    + unfold e_exp. rewrite eval_mk1, (N _ Hn). reflexivity.
Qed.
Print Assumptions c22_guards_needed.

(** the reciprocal of the undefined fraction 1/0 is the number 0 *)
Theorem c22_reciprocal_of_undefined rho :
  let e := e_div e_one (e_div e_one e_zero) in
  wf e /\ num_aggregate Strict e = Ok e_zero /\ eval rho e_zero = Some 0 /\ eval rho e = None.
Proof.
  intros e. refine (conj _ (conj _ (conj _ _))).
  - apply wf_mk2; [reflexivity|apply wf_one|apply wf_mk2; [reflexivity|apply wf_one|apply wf_zero]].
  - vm_compute. reflexivity.
  - apply eval_zero.
  - unfold e, e_div. rewrite !eval_mk2, eval_one, eval_zero. cbn [obind ev2].
    destruct (Req_EM_T 0 0); [reflexivity|lra].
Qed.
Print Assumptions c22_reciprocal_of_undefined.

(** *** the hypotheses are met: ln(x - 2) + 0 * (1/3) at x = 1 (no value) and x = 4 (ln 2) *)
Definition ex_undef : expr :=
  e_add (e_ln (e_sub (e_var "x"%string) (e_of_i64 2))) (e_mul e_zero (e_div e_one (e_of_i64 3))).

Lemma sub_leaf s o : subterm s (Expr (Operand o) []) -> s = Expr (Operand o) [].
Proof. intros H. inversion H as [|? ? ? c' Hc]; subst; [reflexivity|destruct Hc]. Qed.

Lemma ex_undef_sub s : subterm s ex_undef ->
  In s [ex_undef; e_ln (e_sub (e_var "x"%string) (e_of_i64 2)); e_sub (e_var "x"%string) (e_of_i64 2);
        e_var "x"%string; e_of_i64 2; e_mul e_zero (e_div e_one (e_of_i64 3)); e_zero;
        e_div e_one (e_of_i64 3); e_one; e_of_i64 3].
Proof.
  intros H. unfold ex_undef, e_add in H. apply subterm_mk2 in H as [->|[H|H]].
  - left; reflexivity.
  - unfold e_ln in H. apply subterm_mk1 in H as [->|H]; [right; left; reflexivity|].
    unfold e_sub in H. apply subterm_mk2 in H as [->|[H|H]]; [do 2 right; left; reflexivity| |];
      apply sub_leaf in H; subst s; [do 3 right; left; reflexivity|do 4 right; left; reflexivity].
  - unfold e_mul in H. apply subterm_mk2 in H as [->|[H|H]]; [do 5 right; left; reflexivity| |].
    + apply sub_leaf in H; subst s. do 6 right; left; reflexivity.
    + unfold e_div in H. apply subterm_mk2 in H as [->|[H|H]]; [do 7 right; left; reflexivity| |];
      apply sub_leaf in H; subst s; [do 8 right; left; reflexivity|do 9 right; left; reflexivity].
Qed.

Example c22_example rho :
  wf ex_undef /\ avoids_bad_rules ex_undef /\ keeps_domain rho ex_undef /\
  num_aggregate Strict ex_undef = Ok (e_ln (e_sub (e_var "x"%string) (e_of_i64 2))) /\
  (rho "x"%string = 1 -> eval rho ex_undef = None) /\ (rho "x"%string = 4 -> eval rho ex_undef = Some (ln 2)).
Proof.
  assert (eval rho (e_div e_one (e_of_i64 3)) = Some (1 / 3)) as E3.
  { unfold e_div. rewrite eval_mk2, eval_one. unfold e_of_i64, e_num. rewrite eval_num, num_R_int.
    cbn [obind ev2]. destruct (Req_EM_T 3 0); [lra|reflexivity]. }
  assert (wf ex_undef) as W.
  { apply wf_mk2; [reflexivity| |].
    - apply wf_mk1; [reflexivity|]. apply wf_mk2; [reflexivity|apply wf_var|].
      apply wf_num', sn_of_i64_ok; reflexivity.
    - apply wf_mk2; [reflexivity|apply wf_zero|]. apply wf_mk2; [reflexivity|apply wf_one|].
      apply wf_num', sn_of_i64_ok; reflexivity. }
  split; [assumption|]. refine (conj _ (conj _ (conj _ _))).
  - split.
    + intros a b a' H. exfalso. apply ex_undef_sub in H. cbn [In] in H.
      decompose [or] H; try contradiction; discriminate.
    + intros a a' H. exfalso. apply ex_undef_sub in H. cbn [In] in H.
      decompose [or] H; try contradiction; discriminate.
  - split; [|split].
    + intros a b H. assert (a = e_zero /\ b = e_div e_one (e_of_i64 3)) as [-> ->].
      { apply ex_undef_sub in H. cbn [In] in H.
        destruct H as [H|[H|[H|[H|[H|[H|[H|[H|[H|[H|[]]]]]]]]]]]; try discriminate H.
        injection H as <- <-. split; reflexivity. }
      split; [intros _; eexists; exact E3|intros _; exists 0; apply eval_zero].
    + intros a b H. assert (a = e_one /\ b = e_of_i64 3) as [-> ->].
      { apply ex_undef_sub in H. cbn [In] in H.
        destruct H as [H|[H|[H|[H|[H|[H|[H|[H|[H|[H|[]]]]]]]]]]]; try discriminate H.
        injection H as <- <-. split; reflexivity. }
      split; intros _; [exists 3; split; [|lra]|exists 3];
        unfold e_of_i64, e_num; rewrite eval_num, num_R_int; reflexivity.
    + intros a u H. exfalso. apply ex_undef_sub in H. cbn [In] in H.
      decompose [or] H; try contradiction; discriminate.
  - vm_compute. reflexivity.
  - assert (forall x, rho "x"%string = x -> eval rho ex_undef =
      obind (if Rlt_dec 0 (x - 2) then Some (ln (x - 2)) else None) (fun u => Some (u + 0 * (1 / 3)))) as E.
    { intros x Hx. unfold ex_undef, e_add. rewrite eval_mk2. unfold e_mul. rewrite eval_mk2, eval_zero, E3.
      unfold e_ln. rewrite eval_mk1. unfold e_sub. rewrite eval_mk2. unfold e_var. rewrite eval_var, Hx.
      unfold e_of_i64, e_num. rewrite eval_num, num_R_int. reflexivity. }
    split; intros Hx; rewrite (E _ Hx).
    + destruct (Rlt_dec 0 (1 - 2)); [lra|reflexivity].
    + destruct (Rlt_dec 0 (4 - 2)); [|lra]. cbn [obind]. f_equal. replace (4 - 2) with 2 by lra. lra.
Qed.
