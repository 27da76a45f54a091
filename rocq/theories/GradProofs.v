(** * GradProofs: the partial derivatives form the total derivative *)
From Coq Require Import ZArith QArith List String Bool Lia Lra.
From Coq Require Import Reals Qreals.
From Coquelicot Require Import Coquelicot.
From Verif Require Import Base Float Rational SmartNum Ast Compute Spec SpecTree SpecR SpecMulti.
From Verif Require Import BaseProofs NumProofs NumProofs2 TreeProofs TreeProofs2 TreeProofs3 TreeProofs4.
From Verif Require Import RealProofs RealDeriv RealDeriv2 RealTaylor ContProofs.
Import ListNotations.
Open Scope R_scope.

(** neighbourhoods of an assignment, uniform in the variables *)
Definition near (rho : string -> R) (P : (string -> R) -> Prop) : Prop :=
  exists delta, 0 < delta /\ forall s, (forall y, Rabs (s y - rho y) < delta) -> P s.

Global Instance near_filter rho : Filter (near rho).
Proof.
  constructor.
  - exists 1. split; [lra|auto].
  - intros P Q (a & Ha & HP) (b & Hb & HQ). exists (Rmin a b). split; [apply Rmin_pos; assumption|].
    intros s Hs. pose proof (Rmin_l a b). pose proof (Rmin_r a b).
    split; [apply HP|apply HQ]; intros y; specialize (Hs y); lra.
  - intros P Q H (a & Ha & HP). exists a. split; [exact Ha|]. intros s Hs. apply H, HP, Hs.
Qed.

Definition closed (b : expr) : Prop := forall x, ~ occurs x b.
Definition AA (_ : string) : Prop := True.

Lemma closed_stable : agg_stable closed.
Proof. intros b b' H E x. exact (stable_absent x b b' (H x) E). Qed.

Lemma near_var rho y : filterlim (fun s : string -> R => s y) (near rho) (locally (rho y)).
Proof.
  intros P [eps H]. exists eps. split; [apply cond_pos|]. intros s Hs. apply H. exact (Hs y).
Qed.
Lemma near_closed rho b : closed b -> near rho (fun s => eval s b = eval rho b).
Proof.
  intros H. exists 1. split; [lra|]. intros s _. apply eval_ext. intros z Hz. destruct (H z Hz).
Qed.

Lemma regular_all_closed rho e : (forall x, regular rho x e) -> rgen AA closed rho e.
Proof.
  intros H. split; [|exact (proj2 (H EmptyString))]. intros a b Hs.
  destruct (proj1 (H EmptyString) a b Hs) as (v & Hv & H0 & _ & H1). exists v. split; [exact Hv|]. split; [exact H0|]. split.
  - destruct (Rlt_dec 0 v) as [P|P]; [left; exact P|right]. intros x Ho.
    destruct (proj1 (H x) a b Hs) as (v' & Hv' & _ & [P'|P'] & _); [|exact (P' Ho)].
    rewrite Hv in Hv'. injection Hv' as <-. contradiction.
  - destruct H1 as [[y ->]|H1]; [left; exists y; split; [exact I|reflexivity]|right; exact H1].
Qed.

Lemma good_near rho e : wf e -> rgen AA closed rho e -> defined rho e ->
  near rho (fun s => rgen AA closed s e /\ defined s e).
Proof.
  intros W Hr [v Hv].
  destruct (tends_eval (near rho) (fun s => s) rho (near_var rho) AA closed (near_closed rho) e W Hr v Hv) as [D _].
  generalize (filter_and _ _ D (rgen_along (near rho) (fun s => s) rho (near_var rho) AA closed (near_closed rho)
    e W Hr (ex_intro _ v Hv))). apply filter_imp.
  intros s [E1 E2]. split; [exact E2|]. eexists. exact E1.
Qed.

Lemma value_near rho e v : wf e -> rgen AA closed rho e -> eval rho e = Some v -> forall eps, 0 < eps ->
  near rho (fun s => exists w, eval s e = Some w /\ Rabs (w - v) < eps).
Proof.
  intros W Hr Hv eps He.
  destruct (tends_eval (near rho) (fun s => s) rho (near_var rho) AA closed (near_closed rho) e W Hr v Hv) as [D L].
  assert (L' : near rho (fun s => Rabs (val0 (eval s e) - v) < eps)).
  { apply (L (fun w => Rabs (w - v) < eps)). exists (mkposreal eps He). intros w Hw. exact Hw. }
  generalize (filter_and _ _ D L'). apply filter_imp. intros s [E1 E2].
  exists (val0 (eval s e)). auto.
Qed.

Lemma sumR_ext f g xs : (forall x, In x xs -> f x = g x) -> sumR f xs = sumR g xs.
Proof.
  induction xs as [|x xs IH]; intros H; [reflexivity|]. cbn. rewrite (H x (or_introl eq_refl)).
  f_equal. apply IH. intros y Hy. apply H. right. exact Hy.
Qed.

Lemma one_step s x c0 e d : wf e -> deriv Strict x e = Ok d ->
  (forall c, Rmin c0 (s x) <= c <= Rmax c0 (s x) -> rgen AA closed (upd s x c) e /\ defined (upd s x c) e) ->
  exists c w w0 q, Rmin c0 (s x) <= c <= Rmax c0 (s x) /\ eval s e = Some w /\ eval (upd s x c0) e = Some w0 /\
    eval (upd s x c) d = Some q /\ w - w0 = q * (s x - c0).
Proof.
  intros W Hd HG.
  assert (HD : forall c, Rmin c0 (s x) <= c <= Rmax c0 (s x) -> exists q, eval (upd s x c) d = Some q /\
    is_derive (evalx s x e) c q).
  { intros c Hc. destruct (HG c Hc) as [Hr [v Hv]].
    assert (Hr' : rgen AA (fun b => ~ occurs x b) (upd s x c) e).
    { revert Hr. apply rgen_weaken; [auto|]. intros b Hb. apply Hb. }
    destruct (deriv_correct AA s x c e W Hr' d v Hd Hv) as (q & Q1 & _ & Q2). exists q. auto. }
  destruct (MVT_gen (evalx s x e) c0 (s x) (fun c => val0 (eval (upd s x c) d))) as (c & Hc & E).
  - intros c Hc. destruct (HD c ltac:(lra)) as (q & Q1 & Q2). rewrite Q1. exact Q2.
  - intros c Hc. destruct (HD c Hc) as (q & Q1 & Q2). apply continuity_pt_filterlim. exact (cont_of _ _ _ Q2).
  - destruct (HD c Hc) as (q & Q1 & _).
    destruct (HG (s x) (conj (Rmin_r _ _) (Rmax_r _ _))) as [_ [w Hw]].
    destruct (HG c0 (conj (Rmin_l _ _) (Rmax_l _ _))) as [_ [w0 Hw0]].
    exists c, w, w0, q. split; [exact Hc|]. split.
    { rewrite <- Hw. apply eval_ext. intros z _. unfold upd. destruct (String.eqb_spec z x); subst; reflexivity. }
    split; [exact Hw0|]. split; [exact Q1|].
    rewrite Q1 in E. cbn [val0] in E. unfold evalx in E. rewrite Hw, Hw0 in E. exact E.
Qed.

Lemma gradient rho e v (D : string -> expr) : wf e -> rgen AA closed rho e -> eval rho e = Some v ->
  forall xs, NoDup xs -> (forall x, In x xs -> deriv Strict x e = Ok (D x)) ->
  forall eps, 0 < eps -> exists delta, 0 < delta /\ forall s,
    (forall y, Rabs (s y - rho y) < delta) -> (forall y, ~ In y xs -> s y = rho y) ->
    exists w, eval s e = Some w /\
      Rabs (w - v - sumR (fun x => val0 (eval rho (D x)) * (s x - rho x)) xs)
        <= eps * sumR (fun x => Rabs (s x - rho x)) xs.
Proof.
  intros W Hr Hv. induction xs as [|x xs IH]; intros ND HD eps He.
  - exists 1. split; [lra|]. intros s _ Hs. exists v. split.
    + rewrite <- Hv. apply eval_ext. intros y _. apply Hs. intros [].
    + cbn. replace (v - v - 0) with 0 by ring. rewrite Rabs_R0. lra.
  - inversion ND as [|? ? Nx ND']; subst.
    destruct (IH ND' (fun y Hy => HD y (or_intror Hy)) eps He) as (d1 & P1 & K1). clear IH.
    pose proof (HD x (or_introl eq_refl)) as Hdx. pose proof (deriv_wf _ _ _ _ W Hdx) as Wd.
    pose proof (deriv_rgen _ _ _ _ _ closed_stable W Hr _ Hdx) as Rd.
    assert (Dd : exists q, eval rho (D x) = Some q).
    { assert (Hr' : rgen AA (fun b => ~ occurs x b) (upd rho x (rho x)) e).
      { assert (rgen AA closed (upd rho x (rho x)) e) as Hr1.
        { destruct Hr as [H1 H2]. split; [|exact H2]. intros a b Hs. destruct (H1 a b Hs) as (q & E1 & E2).
          exists q. split; [|exact E2]. rewrite <- E1. apply eval_ext. intros z _. unfold upd.
          destruct (String.eqb_spec z x); subst; reflexivity. }
        revert Hr1. apply rgen_weaken; [auto|]. intros b Hb. apply Hb. }
      destruct (deriv_correct AA rho x (rho x) e W Hr' (D x) v Hdx) as (q & Q1 & _).
      - rewrite <- Hv. apply eval_ext. intros z _. unfold upd. destruct (String.eqb_spec z x); subst; reflexivity.
      - exists q. rewrite <- Q1. apply eval_ext. intros z _. unfold upd. destruct (String.eqb_spec z x); subst; reflexivity. }
    destruct Dd as [q0 Hq0].
    destruct (good_near rho e W Hr (ex_intro _ v Hv)) as (d2 & P2 & K2).
    destruct (value_near rho (D x) q0 Wd Rd Hq0 eps He) as (d3 & P3 & K3).
    exists (Rmin d1 (Rmin d2 d3)). split; [repeat apply Rmin_pos; assumption|].
    intros s Hs Ho.
    pose proof (Rmin_l d1 (Rmin d2 d3)) as M1. pose proof (Rmin_r d1 (Rmin d2 d3)) as M2.
    pose proof (Rmin_l d2 d3) as M3. pose proof (Rmin_r d2 d3) as M4.
    assert (Seg : forall c, Rmin (rho x) (s x) <= c <= Rmax (rho x) (s x) ->
      forall y, Rabs (upd s x c y - rho y) < Rmin d1 (Rmin d2 d3)).
    { intros c Hc y. unfold upd. destruct (String.eqb_spec y x) as [->|]; [|apply Hs].
      apply Rle_lt_trans with (Rabs (s x - rho x)); [|apply Hs].
      unfold Rmin, Rmax in Hc. destruct (Rle_dec (rho x) (s x)).
      - rewrite !Rabs_right by lra. lra.
      - rewrite (Rabs_left1 (s x - rho x)) by lra. rewrite (Rabs_left1 (c - rho x)) by lra. lra. }
    destruct (one_step s x (rho x) e (D x) W Hdx) as (c & w & w0 & q & Hc & Hw & Hw0 & Hq & E).
    { intros c Hc. apply K2. intros y. pose proof (Seg c Hc y). lra. }
    destruct (K1 (upd s x (rho x))) as (w0' & Hw0' & B).
    { intros y. pose proof (Seg (rho x) (conj (Rmin_l _ _) (Rmax_l _ _)) y). lra. }
    { intros y Hy. unfold upd. destruct (String.eqb_spec y x) as [->|Ny]; [reflexivity|].
      apply Ho. intros [H|H]; congruence. }
    rewrite Hw0 in Hw0'. injection Hw0' as <-.
    destruct (K3 (upd s x c)) as (q' & Hq' & C). { intros y. pose proof (Seg c Hc y). lra. }
    rewrite Hq in Hq'. injection Hq' as <-.
    exists w. split; [exact Hw|]. cbn [sumR fold_right]. rewrite Hq0. cbn [val0].
    fold (sumR (fun x => val0 (eval rho (D x)) * (s x - rho x)) xs).
    fold (sumR (fun x => Rabs (s x - rho x)) xs).
    rewrite (sumR_ext _ (fun x => val0 (eval rho (D x)) * (s x - rho x))) in B.
    2:{ intros y Hy. unfold upd. destruct (String.eqb_spec y x); [subst; contradiction|reflexivity]. }
    rewrite (sumR_ext (fun y => Rabs (upd s x (rho x) y - rho y)) (fun y => Rabs (s y - rho y))) in B.
    2:{ intros y Hy. unfold upd. destruct (String.eqb_spec y x); [subst; contradiction|reflexivity]. }
    set (S1 := sumR _ xs) in *. set (S2 := sumR _ xs) in *.
    replace (w - v - (q0 * (s x - rho x) + S1)) with ((w0 - v - S1) + (q - q0) * (s x - rho x)) by (rewrite <- (Rplus_0_l w); nra).
    eapply Rle_trans; [apply Rabs_triang|]. rewrite Rabs_mult.
    assert (Rabs (q - q0) * Rabs (s x - rho x) <= eps * Rabs (s x - rho x)).
    { apply Rmult_le_compat_r; [apply Rabs_pos|lra]. }
    lra.
Qed.

(** ** the chain rule *)
Lemma upd_self rho x q : upd rho x (rho x) q = rho q.
Proof. unfold upd. destruct (String.eqb_spec q x); subst; reflexivity. Qed.

Lemma chain rho x y e v w f0 ex ey b : wf e -> eval rho v = Some w ->
  rgen AA closed (upd rho x w) e -> eval (upd rho x w) e = Some f0 ->
  deriv Strict x e = Ok ex -> deriv Strict y e = Ok ey ->
  dat rho y v (rho y) b ->
  is_derive (evalx rho y (subst x v e)) (rho y)
    (val0 (eval (upd rho x w) ex) * b + (if String.eqb y x then 0 else val0 (eval (upd rho x w) ey))).
Proof.
  intros We Hw Hr Hf0 Hex Hey [Hl Hd].
  set (rho1 := upd rho x w) in *. set (g := evalx rho y v) in *.
  set (a := val0 (eval rho1 ex)). set (c := if String.eqb y x then 0 else val0 (eval rho1 ey)).
  assert (G0 : g (rho y) = w).
  { unfold g, evalx. rewrite (eval_ext _ rho); [rewrite Hw; reflexivity|]. intros q _. apply upd_self. }
  set (st := fun t => upd (upd rho y t) x (g t)).
  assert (Key : forall e2, 0 < e2 -> exists d2, 0 < d2 /\ forall h, Rabs h < d2 -> Rabs (g (rho y + h) - w) < d2 ->
    exists q, eval (st (rho y + h)) e = Some q /\
      Rabs (q - f0 - (a * (g (rho y + h) - w) + c * h)) <= e2 * (Rabs (g (rho y + h) - w) + Rabs h)).
  { intros e2 He2. unfold c. destruct (String.eqb_spec y x) as [->|N].
    - destruct (gradient rho1 e f0 (fun _ => ex) We Hr Hf0 [x]) with (eps := e2) as (d2 & P2 & K2).
      + constructor; [intros []|constructor].
      + intros q [<-|[]]. exact Hex.
      + exact He2.
      + exists d2. split; [exact P2|]. intros h Hh Hg. set (t := rho x + h) in *.
        assert (St : forall q, st t q = if String.eqb q x then g t else rho q).
        { intros q. unfold st, upd. destruct (String.eqb_spec q x); reflexivity. }
        destruct (K2 (st t)) as (q & Q1 & Q2).
        * intros q. rewrite St. unfold rho1, upd. destruct (String.eqb q x); [exact Hg|].
          rewrite Rminus_eq_0, Rabs_R0. exact P2.
        * intros q Hq. rewrite St. unfold rho1, upd. destruct (String.eqb_spec q x) as [->|]; [|reflexivity].
          exfalso. apply Hq. left. reflexivity.
        * exists q. split; [exact Q1|]. unfold sumR in Q2. cbn [fold_right] in Q2. rewrite St in Q2.
          rewrite String.eqb_refl in Q2.
          replace (rho1 x) with w in Q2 by (unfold rho1; rewrite upd_same; reflexivity). fold a in Q2.
          rewrite !Rplus_0_r in Q2. rewrite Rmult_0_l, Rplus_0_r. eapply Rle_trans; [exact Q2|].
          apply Rmult_le_compat_l; [lra|]. pose proof (Rabs_pos h). lra.
    - destruct (gradient rho1 e f0 (fun q => if String.eqb q x then ex else ey) We Hr Hf0 [x; y]) with (eps := e2) as (d2 & P2 & K2).
      + constructor; [intros [E|[]]; congruence|]. constructor; [intros []|constructor].
      + intros q [<-|[<-|[]]]; [rewrite String.eqb_refl; exact Hex|].
        destruct (String.eqb_spec y x); [contradiction|exact Hey].
      + exact He2.
      + exists d2. split; [exact P2|]. intros h Hh Hg. set (t := rho y + h) in *.
        destruct (K2 (st t)) as (q & Q1 & Q2).
        * intros q. unfold st, rho1, upd. destruct (String.eqb q x); [exact Hg|].
          destruct (String.eqb_spec q y) as [->|].
          -- unfold t. replace (rho y + h - rho y) with h by ring. exact Hh.
          -- rewrite Rminus_eq_0, Rabs_R0. exact P2.
        * intros q Hq. unfold st, rho1, upd. destruct (String.eqb_spec q x) as [->|].
          -- exfalso. apply Hq. left. reflexivity.
          -- destruct (String.eqb_spec q y) as [->|]; [|reflexivity]. exfalso. apply Hq. right. left. reflexivity.
        * exists q. split; [exact Q1|]. unfold sumR in Q2. cbn [fold_right] in Q2.
          replace (st t x) with (g t) in Q2 by (unfold st; rewrite upd_same; reflexivity).
          replace (st t y) with t in Q2 by (unfold st; rewrite upd_other by congruence; rewrite upd_same; reflexivity).
          replace (rho1 x) with w in Q2 by (unfold rho1; rewrite upd_same; reflexivity).
          replace (rho1 y) with (rho y) in Q2 by (unfold rho1; rewrite upd_other by congruence; reflexivity).
          rewrite String.eqb_refl in Q2. destruct (String.eqb_spec y x); [contradiction|].
          fold a in Q2. replace (t - rho y) with h in Q2 by (unfold t; ring). rewrite !Rplus_0_r in Q2. exact Q2. }
  apply is_derive_Reals. apply is_derive_Reals in Hd. intros eps He.
  set (e1 := Rmin 1 (eps / (4 * (Rabs a + 1)))). set (e2 := eps / (4 * (Rabs b + 2))).
  pose proof (Rabs_pos a) as Pa. pose proof (Rabs_pos b) as Pb.
  assert (P1 : 0 < e1). { unfold e1. apply Rmin_pos; [lra|]. apply Rdiv_lt_0_compat; lra. }
  assert (P2 : 0 < e2). { unfold e2. apply Rdiv_lt_0_compat; lra. }
  assert (E1 : e1 <= 1) by apply Rmin_l.
  assert (E1' : Rabs a * e1 <= eps / 4).
  { apply Rle_trans with (Rabs a * (eps / (4 * (Rabs a + 1)))).
    - apply Rmult_le_compat_l; [lra|apply Rmin_r].
    - replace (Rabs a * (eps / (4 * (Rabs a + 1)))) with (eps / 4 * (Rabs a / (Rabs a + 1))) by (field; lra).
      rewrite <- (Rmult_1_r (eps / 4)) at 2. apply Rmult_le_compat_l; [lra|].
      apply Rmult_le_reg_r with (Rabs a + 1); [lra|]. unfold Rdiv. rewrite Rmult_assoc, Rinv_l by lra. lra. }
  assert (E2 : e2 * (Rabs b + 2) = eps / 4). { unfold e2. field. lra. }
  destruct (Hd e1 P1) as [d1 K1]. destruct (Key e2 P2) as (d2 & Pd2 & K2). destruct Hl as [d3 K3].
  set (d4 := d2 / (Rabs b + 2)). assert (P4 : 0 < d4) by (unfold d4; apply Rdiv_lt_0_compat; lra).
  assert (E4 : d4 * (Rabs b + 2) = d2). { unfold d4. field. lra. }
  assert (Pd : 0 < Rmin (Rmin d1 d2) (Rmin d3 d4)).
  { repeat apply Rmin_pos; try apply cond_pos; assumption. }
  exists (mkposreal _ Pd). cbn [pos]. intros h Hh0 Hh.
  assert (H1 : Rabs h < d1 /\ Rabs h < d2 /\ Rabs h < d3 /\ Rabs h < d4).
  { pose proof (Rmin_l (Rmin d1 d2) (Rmin d3 d4)). pose proof (Rmin_r (Rmin d1 d2) (Rmin d3 d4)).
    pose proof (Rmin_l d1 d2). pose proof (Rmin_r d1 d2). pose proof (Rmin_l d3 d4). pose proof (Rmin_r d3 d4).
    repeat split; lra. }
  destruct H1 as (H1 & H2 & H3 & H4). assert (Ph : 0 < Rabs h) by (apply Rabs_pos_lt; exact Hh0).
  specialize (K1 h Hh0 H1). rewrite G0 in K1.
  set (k := g (rho y + h) - w) in *.
  assert (Bk : Rabs (k - b * h) <= e1 * Rabs h).
  { replace (k - b * h) with ((k / h - b) * h) by (field; exact Hh0). rewrite Rabs_mult.
    apply Rmult_le_compat_r; lra. }
  assert (Bk' : Rabs k <= (Rabs b + 1) * Rabs h).
  { replace k with ((k - b * h) + b * h) by ring. eapply Rle_trans; [apply Rabs_triang|]. rewrite (Rabs_mult b h). nra. }
  assert (Bk2 : Rabs k < d2) by nra.
  destruct (K2 h H2 Bk2) as (q & Q1 & Q2).  fold k in Q2.
  assert (Vz : evalx rho y (subst x v e) (rho y + h) = q).
  { unfold evalx. assert (Ev : eval (upd rho y (rho y + h)) v = Some (g (rho y + h))).
    { apply K3. unfold ball; cbn. unfold AbsRing_ball, abs, minus, plus, opp; cbn.
      replace (rho y + h + - rho y) with h by ring. exact H3. }
    rewrite (eval_subst _ x v _ e Ev). fold (st (rho y + h)). rewrite Q1. reflexivity. }
  assert (V0 : evalx rho y (subst x v e) (rho y) = f0).
  { unfold evalx. rewrite (eval_subst _ x v w e).
    - rewrite (eval_ext _ rho1); [rewrite Hf0; reflexivity|]. intros z _. unfold rho1, upd.
      destruct (String.eqb z x); [reflexivity|]. destruct (String.eqb_spec z y) as [->|]; reflexivity.
    - rewrite <- Hw. apply eval_ext. intros z _. apply upd_self. }
  rewrite Vz, V0.
  assert (T : Rabs (q - f0 - (a * b + c) * h) <= eps / 2 * Rabs h).
  { replace (q - f0 - (a * b + c) * h) with ((q - f0 - (a * k + c * h)) + a * (k - b * h)) by ring.
    eapply Rle_trans; [apply Rabs_triang|]. rewrite Rabs_mult.
    assert (Rabs a * Rabs (k - b * h) <= eps / 4 * Rabs h).
    { apply Rle_trans with (Rabs a * (e1 * Rabs h)); [apply Rmult_le_compat_l; lra|].
      rewrite <- Rmult_assoc. apply Rmult_le_compat_r; lra. }
    assert (e2 * (Rabs k + Rabs h) <= eps / 4 * Rabs h).
    { rewrite <- E2, Rmult_assoc. apply Rmult_le_compat_l; lra. }
    lra. }
  replace ((q - f0) / h - (a * b + c)) with ((q - f0 - (a * b + c) * h) / h) by (field; exact Hh0).
  unfold Rdiv. rewrite Rabs_mult, Rabs_inv.
  apply Rmult_lt_reg_r with (Rabs h); [exact Ph|]. rewrite Rmult_assoc, Rinv_l by lra. nra.
Qed.
