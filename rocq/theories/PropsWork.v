(** * PropsWork: C98 -- how many calls the operations make *)
From Coq Require Import ZArith List String Bool Lia Arith.
From Verif Require Import Base Float Rational SmartNum Ast Compute Limit Direct Work.
From Verif Require Import Spec SpecTree SpecShape.
From Verif Require Import BaseProofs NumProofs TreeProofs TreeProofs2 TreeProofs3 TreeProofs4 TreeProofs5 ShapeProofs RealTaylor PropsTree PropsShape PropsGrow PropsDepth.
Import ListNotations.
Open Scope nat_scope.
Open Scope res_scope.

Lemma kbind_ok {A B} a n (f : A -> K B) : kbind (Ok a, n) f = (fst (f a), n + snd (f a)).
Proof. cbn [kbind]. destruct (f a); reflexivity. Qed.

(** ** num_aggregate *)
Lemma w_agg_spec m : forall f e, wf e -> depth e <= f ->
  fst (w_aggregate f m e) = num_aggregate m e /\ snd (w_aggregate f m e) <= size e /\
  (forall z, num_aggregate m e = Ok z -> snd (w_aggregate f m e) = size e).
Proof.
  intros f e W. revert f. pattern e. revert e W. apply wf_ind1.
  - intros n _ [|f] H; [cbn in H; lia|]. repeat split; cbn; lia.
  - intros y [|f] H; [cbn in H; lia|]. repeat split; cbn; lia.
  - intros t a Ht Wa IH [|f] H; rewrite depth_mk1 in H; [lia|].
    destruct (IH f ltac:(lia)) as (I1 & I2 & I3). rewrite agg_mk1, size_mk1 by exact Ht.
    unfold mk1. cbn [w_aggregate root child]. rewrite descriptor_gen.
    assert (G : forall k : K expr, k = w_rule1 (w_aggregate f m) (fun _ v => eval_rule m t [Ok v]) [a] ->
      fst (tick k) = (let* l := num_aggregate m a in eval_rule m t [Ok l]) /\
      snd (tick k) <= S (size a) /\
      (forall z, (let* l := num_aggregate m a in eval_rule m t [Ok l]) = Ok z -> snd (tick k) = S (size a))).
    { intros k ->. unfold w_rule1, lift, pop_unwrap. cbn [pop kbind].
      destruct (w_aggregate f m a) as [r n]. cbn [fst snd] in *. subst r.
      destruct (num_aggregate m a) as [v| | |]; cbn [kbind bind tick fst snd]; (split; [reflexivity|split; [lia|]]); intros z Hz; try discriminate.
      rewrite (I3 v eq_refl). lia. }
    destruct t; try discriminate Ht; apply G; reflexivity.
  - intros t a b Ht Wa Wb IHa IHb [|f] H; rewrite depth_mk2 in H; [lia|].
    destruct (IHa f ltac:(lia)) as (I1 & I2 & I3). destruct (IHb f ltac:(lia)) as (J1 & J2 & J3).
    rewrite agg_mk2, size_mk2 by exact Ht.
    unfold mk2. cbn [w_aggregate root child]. rewrite descriptor_gen.
    assert (G : forall k : K expr, k = w_rule2 (w_aggregate f m) (fun _ l _ r => eval_rule m t [Ok l; Ok r]) [a; b] ->
      fst (tick k) = (let* r := num_aggregate m b in let* l := num_aggregate m a in eval_rule m t [Ok l; Ok r]) /\
      snd (tick k) <= S (size a + size b) /\
      (forall z, (let* r := num_aggregate m b in let* l := num_aggregate m a in eval_rule m t [Ok l; Ok r]) = Ok z -> snd (tick k) = S (size a + size b))).
    { intros k ->. unfold w_rule2, lift, pop_unwrap. cbn [pop kbind].
      destruct (w_aggregate f m a) as [ra na]. destruct (w_aggregate f m b) as [rb nb]. cbn [fst snd] in *. subst ra rb.
      destruct (num_aggregate m b) as [v| | |]; cbn [kbind bind pop tick fst snd]; try (split; [reflexivity|split; [lia|]]; intros z Hz; discriminate).
      rewrite (J3 v eq_refl).
      destruct (num_aggregate m a) as [u| | |]; cbn [kbind bind tick fst snd]; (split; [reflexivity|split; [lia|]]); intros z Hz; try discriminate.
      rewrite (I3 u eq_refl). lia. }
    destruct t; try discriminate Ht; apply G; reflexivity.
Qed.

(** [num_aggregate] calls itself once per node: never more, and if it returns not less *)
Theorem c98_aggregate m e f : wf e -> depth e <= f ->
  fst (w_aggregate f m e) = num_aggregate m e /\ snd (w_aggregate f m e) <= size e /\
  (forall z, num_aggregate m e = Ok z -> snd (w_aggregate f m e) = size e).
Proof. intros W H. exact (w_agg_spec m f e W H). Qed.

(** ** substitute *)
Lemma w_sub_spec u v : forall f e, depth e <= f -> wf e ->
  w_subst f e u v = (Ok (subst u v e), size e).
Proof.
  intros f e H W. revert f H. pattern e. revert e W. apply wf_ind1.
  - intros n _ [|f] H; [cbn in H; lia|]. reflexivity.
  - intros y [|f] H; [cbn in H; lia|]. cbn. destruct (String.eqb y u); reflexivity.
  - intros t a Ht Wa IH [|f] H; rewrite depth_mk1 in H; [lia|]. rewrite size_mk1.
    unfold mk1. cbn [w_subst root child w_sub_loop]. rewrite IH by lia. rewrite kbind_ok.
    cbn [lift fst snd app kbind]. unfold tick. cbn [subst map]. f_equal. lia.
  - intros t a b Ht Wa Wb IHa IHb [|f] H; rewrite depth_mk2 in H; [lia|]. rewrite size_mk2.
    unfold mk2. cbn [w_subst root child w_sub_loop]. rewrite IHa, IHb by lia. rewrite !kbind_ok.
    cbn [lift fst snd app kbind]. unfold tick. cbn [subst map]. f_equal. lia.
Qed.
(** [substitute] calls itself exactly once per node *)
Theorem c98_substitute e u v f : wf e -> depth e <= f ->
  w_subst f e u v = (Ok (subst u v e), size e).
Proof. intros W H. exact (w_sub_spec u v f e H W). Qed.

(** ** derivative *)
Definition wok (m : mode) (x : string) (f : nat) (e : expr) : Prop :=
  fst (w_deriv f m e x) = deriv m x e /\ snd (w_deriv f m e x) <= 2 * (size e * size e * size e).

Lemma raw1_size t a da : arity t = 1 -> size (raw1 t a da) <= size da + size a + 3.
Proof. intros Ht. destruct t; try discriminate; unfold raw1, e_neg, e_mul, e_cos, e_sin, e_exp, e_div; rewrite ?size_mk2, ?size_mk1; lia. Qed.
Lemma raw2_size t a b da db : arity t = 2 -> size (raw2 t a b da db) <= size da + size db + 3 * size a + 3 * size b + 7.
Proof. intros Ht. destruct t; try discriminate; unfold raw2, e_add, e_sub, e_mul, e_div, e_pow, e_ln; rewrite ?size_mk2, ?size_mk1; lia. Qed.

Lemma w_deriv_1 m x t a f : arity t = 1 ->
  w_deriv (S f) m (mk1 t a) x = tick (kbind (w_deriv f m a x) (fun da => w_aggregate f m (raw1 t a da))).
Proof.
  intros Ht. unfold mk1. cbn [w_deriv root child]. rewrite descriptor_gen.
  destruct t; try discriminate Ht; unfold w_rule1, pop_unwrap, lift; cbn [pop]; rewrite kbind_ok; cbn [fst snd];
    (destruct (w_deriv f m a x) as [[da| | |] n]; cbn [kbind fst snd]; [|reflexivity..]);
    cbn [derivative_rule]; unfold neg_derivative_rule, sin_derivative_rule, cos_derivative_rule, exp_derivative_rule, ln_derivative_rule, pop_unwrap;
    cbn [pop bind kbind fst snd raw1]; destruct (w_aggregate f m _); unfold tick; f_equal; lia.
Qed.
Lemma w_deriv_2 m x t a b f : arity t = 2 ->
  w_deriv (S f) m (mk2 t a b) x = tick (kbind (w_deriv f m b x) (fun db => kbind (w_deriv f m a x) (fun da => w_aggregate f m (raw2 t a b da db)))).
Proof.
  intros Ht. unfold mk2. cbn [w_deriv root child]. rewrite descriptor_gen.
  destruct t; try discriminate Ht; unfold w_rule2, w_rule2', pop_unwrap, lift; cbn [pop kbind fst snd];
    (destruct (w_deriv f m b x) as [[db| | |] n]; cbn [kbind fst snd pop]; [|reflexivity..]);
    (destruct (w_deriv f m a x) as [[da| | |] n']; cbn [kbind fst snd]; [|unfold tick; cbn [kbind]; f_equal; lia ..]);
    cbn [derivative_rule]; unfold add_derivative_rule, sub_derivative_rule, mul_derivative_rule, div_derivative_rule, pow_derivative_rule, pop2, pop_unwrap;
    cbn [pop bind kbind fst snd raw2]; destruct (w_aggregate f m _); unfold tick; f_equal; lia.
Qed.

Lemma w_deriv_spec m x : forall e, wf e -> forall f, wdepth (wn 1) e < f ->
  fst (w_deriv f m e x) = deriv m x e /\ snd (w_deriv f m e x) <= 2 * (size e * size e * size e) /\
  (forall d, deriv m x e = Ok d -> size e + size d <= snd (w_deriv f m e x)).
Proof.
  apply (wf_ind1 (fun e => forall f, wdepth (wn 1) e < f ->
    fst (w_deriv f m e x) = deriv m x e /\ snd (w_deriv f m e x) <= 2 * (size e * size e * size e) /\
    (forall d, deriv m x e = Ok d -> size e + size d <= snd (w_deriv f m e x)))).
  - intros n _ [|[|f]] H; [cbn in H; lia|cbn in H; lia|]. repeat split; [cbn; lia|]. intros d [= <-]. cbn. lia.
  - intros y [|[|f]] H; [cbn in H; lia|cbn in H; lia|].
    cbn [w_deriv root]. rewrite deriv_var.
    destruct (String.eqb x y); (repeat split; [cbn; lia|]); intros d [= <-]; cbn; lia.
  - intros t a Ht Wa IH [|f] H; [lia|]. rewrite wd_mk1 in H. pose proof (wn_pos 1 t).
    destruct (IH f ltac:(lia)) as (I1 & I2 & I3). rewrite w_deriv_1, deriv_mk1, size_mk1 by exact Ht.
    pose proof (size_1 a) as S1.
    destruct (w_deriv f m a x) as [r n]. cbn [fst snd] in *. subst r.
    destruct (deriv m x a) as [da| | |] eqn:Ed; cbn [kbind bind tick fst snd];
      try (split; [reflexivity|split; [nia|intros; discriminate]]).
    specialize (I3 da eq_refl). pose proof (deriv_wf _ _ _ _ Wa Ed) as Wd.
    pose proof (raw1_wf t a da Ht Wa Wd) as Wr.
    pose proof (raw1_wd 0 t a da Ht (deriv_wd m x 0 a Wa da Ed)) as R.
    rewrite (wd_depth _ Wr), wd_mk1 in R.
    destruct (w_agg_spec m f (raw1 t a da) Wr ltac:(lia)) as (A1 & A2 & A3).
    destruct (w_aggregate f m (raw1 t a da)) as [r' n']. cbn [fst snd tick] in *. subst r'.
    pose proof (raw1_size t a da Ht). pose proof (deriv_size m x a Wa da Ed).
    split; [reflexivity|split; [nia|]]. intros d Hd. pose proof (agg_size _ _ _ Hd). rewrite (A3 d Hd). nia.
  - intros t a b Ht Wa Wb IHa IHb [|f] H; [lia|]. rewrite wd_mk2 in H. pose proof (wn_pos 1 t).
    destruct (IHa f ltac:(lia)) as (I1 & I2 & I3). destruct (IHb f ltac:(lia)) as (J1 & J2 & J3).
    rewrite w_deriv_2, deriv_mk2, size_mk2 by exact Ht.
    pose proof (size_1 a) as S1. pose proof (size_1 b) as S2.
    destruct (w_deriv f m b x) as [r n]. cbn [fst snd] in *. subst r.
    assert (C : size a * size a * size a + size b * size b * size b + 3 * (size a + size b) * (size a + size b) <=
       S (size a + size b) * S (size a + size b) * S (size a + size b)).
    { assert (size a * size b >= 1) by nia. nia. }
    destruct (deriv m x b) as [db| | |] eqn:Eb; cbn [kbind bind tick fst snd];
      try (split; [reflexivity|split; [nia|intros; discriminate]]).
    destruct (w_deriv f m a x) as [r n']. cbn [fst snd] in *. subst r.
    destruct (deriv m x a) as [da| | |] eqn:Ed; cbn [kbind bind tick fst snd];
      try (split; [reflexivity|split; [nia|intros; discriminate]]).
    specialize (I3 da eq_refl). specialize (J3 db eq_refl).
    pose proof (deriv_wf _ _ _ _ Wa Ed) as Wda. pose proof (deriv_wf _ _ _ _ Wb Eb) as Wdb.
    pose proof (raw2_wf t a b da db Ht Wa Wb Wda Wdb) as Wr.
    pose proof (raw2_wd 0 t a b da db Ht (deriv_wd m x 0 a Wa da Ed) (deriv_wd m x 0 b Wb db Eb)) as R.
    rewrite (wd_depth _ Wr), wd_mk2 in R.
    destruct (w_agg_spec m f (raw2 t a b da db) Wr ltac:(lia)) as (A1 & A2 & A3).
    destruct (w_aggregate f m (raw2 t a b da db)) as [r' n'']. cbn [fst snd tick] in *. subst r'.
    pose proof (raw2_size t a b da db Ht). pose proof (deriv_size m x a Wa da Ed). pose proof (deriv_size m x b Wb db Eb).
    split; [reflexivity|split; [nia|]]. intros d Hd. pose proof (agg_size _ _ _ Hd). rewrite (A3 d Hd). nia.
Qed.

(** [derivative] of an expression with n nodes makes at most 2 n^3 calls in all, and more than
    n plus the number of nodes of the result *)
Theorem c98_derivative m e x f : wf e -> 4 * depth e <= f ->
  fst (w_deriv f m e x) = deriv m x e /\
  snd (w_deriv f m e x) <= 2 * size e ^ 3 /\
  (forall d, deriv m x e = Ok d -> size e + size d <= snd (w_deriv f m e x)).
Proof.
  intros W H. pose proof (wd_bound 1 e W).
  destruct (w_deriv_spec m x e W f ltac:(lia)) as (A & B & C). split; [exact A|split; [|exact C]].
  cbn [Nat.pow]. nia.
Qed.

Lemma wd_var1 y : wdepth (wn 1) (e_var y) = 1. Proof. reflexivity. Qed.
Lemma monomial_wf n : wf (monomial n).
Proof. induction n as [|n IH]; cbn [monomial]; [apply wf_var|]. unfold e_mul. apply wf_mk2; [reflexivity|apply wf_var|exact IH]. Qed.
Lemma monomial_cost m : forall n f, wdepth (wn 1) (monomial n) < f -> n * n * n <= 3 * snd (w_deriv f m (monomial n) "x").
Proof.
  induction n as [|n IH]; intros f H; [lia|]. destruct f as [|f]; [lia|].
  pose proof (monomial_wf (S n)) as W.
  destruct (c56_quadratic m (S n)) as (d & Hd & _ & Sd). unfold derivative in Hd. cbn [to_variable root ex_x e_var] in Hd. inv_bind Hd.
  injection Hd as ->. 
  cbn [monomial] in *. unfold e_mul in *. rewrite wd_mk2 in H.
  assert (Hn : wdepth (wn 1) (monomial n) < f) by (pose proof (wn_pos 1 OMul); lia).
  specialize (IH f Hn). 
  assert (Wx : wf ex_x) by apply wf_var.
  destruct (w_deriv_spec m "x" (monomial n) (monomial_wf n) f Hn) as (A1 & A2 & A3).
  rewrite w_deriv_2 by reflexivity. rewrite deriv_mk2 in Hb by reflexivity. inv_bind Hb. inv_bind Hb.
  destruct (w_deriv f m (monomial n) "x") as [r c]. cbn [fst snd] in *. subst r. rewrite Hb0 in *. cbn [kbind].
  assert (Hx : wdepth (wn 1) ex_x < f) by (change (wdepth (wn 1) ex_x) with 1; pose proof (wd_1 (wn 1) (wn_pos 1) (monomial n)); lia).
  destruct (w_deriv_spec m "x" ex_x Wx f Hx) as (B1 & B2 & B3).
  destruct (w_deriv f m ex_x "x") as [r c']. cbn [fst snd] in *. subst r. rewrite Hb1 in *. cbn [kbind].
  pose proof (deriv_wf _ _ _ _ (monomial_wf n) Hb0) as W1. pose proof (deriv_wf _ _ _ _ Wx Hb1) as W2.
  pose proof (raw2_wf OMul ex_x (monomial n) _ _ eq_refl Wx (monomial_wf n) W2 W1) as Wr.
  pose proof (raw2_wd 0 OMul ex_x (monomial n) _ _ eq_refl (deriv_wd m "x" 0 ex_x Wx _ Hb1) (deriv_wd m "x" 0 _ (monomial_wf n) _ Hb0)) as R.
  rewrite (wd_depth _ Wr), wd_mk2 in R.
  destruct (w_agg_spec m f _ Wr ltac:(lia)) as (C1 & C2 & C3). specialize (C3 _ Hb). pose proof (agg_size _ _ _ Hb) as Sz.
  destruct (w_aggregate f m _) as [r c'']. cbn [fst snd tick] in *. nia.
Qed.

(** the cubic order is reached: x*(x*(...*x)) with 2n+1 nodes takes at least n^3/3 calls *)
Theorem c98_cubic m n f : 4 * depth (monomial n) <= f ->
  size (monomial n) = 2 * n + 1 /\ n ^ 3 <= 3 * snd (w_deriv f m (monomial n) "x").
Proof.
  intros H. split; [destruct (c56_quadratic m n) as (d & _ & S & _); exact S|].
  pose proof (wd_bound 1 _ (monomial_wf n)). pose proof (monomial_cost m n f ltac:(lia)). cbn [Nat.pow]. nia.
Qed.

(** ** taylor_expansion *)
Lemma agg_le m e f : wf e -> depth e <= f -> exists n, w_aggregate f m e = (num_aggregate m e, n) /\ n <= size e.
Proof.
  intros W H. destruct (w_agg_spec m f e W H) as (A & B & _). destruct (w_aggregate f m e) as [r n].
  cbn [fst snd] in *. subst r. eauto.
Qed.
Lemma count_le x e : wf e -> count_var x e <= size e.
Proof.
  revert e. apply wf_ind1; intros.
  - cbn. lia.
  - cbn. destruct (String.eqb _ _); lia.
  - rewrite size_mk1. unfold mk1. cbn. lia.
  - rewrite size_mk2. unfold mk2. cbn. lia.
Qed.
Lemma subst_le x v e : wf e -> size (subst x v e) <= size e * size v.
Proof.
  intros W. pose proof (subst_size x v e W). pose proof (count_le x e W). pose proof (size_1 v).
  assert (count_var x e * (size v - 1) <= size e * (size v - 1)) by (apply Nat.mul_le_mono_r; assumption). nia.
Qed.

(** calls of one round of the loop when the expression to be differentiated has at most M nodes
    and the point p *)
Definition round_calls (M p : nat) : nat := 2 * M ^ 3 + 2 * (M * p) + M + 2.

Lemma w_taylor_go m x at_ f e n0 M : wf e -> wf at_ ->
  (n0 + 1) * (n0 + 1) * depth e + depth at_ <= f ->
  forall n j k fa r coef, wf r -> num_ok fa -> j + n = n0 ->
  (forall i, wdepth (wn i) r <= wdepth (wn (i + j)) e) ->
  (forall i d, i < n -> deriv_n m x i r = Ok d -> size d <= M) ->
  fst (w_taylor_loop f m x at_ n k fa r coef) = taylor_loop m x at_ n k fa r coef /\
  snd (w_taylor_loop f m x at_ n k fa r coef) <= n * round_calls M (size at_) /\
  (forall cs z, taylor_loop m x at_ n k fa r coef = Ok (cs, z) -> 0 < n -> size z <= snd (w_taylor_loop f m x at_ n k fa r coef)).
Proof.
  intros We Wat Hf. induction n as [|n IH]; intros j k fa r coef Wr Hfa Hj Hw HM.
  { cbn. split; [reflexivity|]. split; [lia|]. intros; lia. }
  assert (Sr : size r <= M) by (apply (HM 0 r); [lia|reflexivity]).
  assert (Dr : depth r <= (j + 1) * (j + 1) * depth e).
  { rewrite <- (wd_depth r Wr). specialize (Hw 0). cbn [Nat.add] in Hw. pose proof (wd_bound j e We). pose proof (depth_1 e). nia. }
  assert (Q : (j + 2) * (j + 2) * depth e <= (n0 + 1) * (n0 + 1) * depth e).
  { apply Nat.mul_le_mono_r. apply Nat.mul_le_mono; lia. }
  assert (Dr' : depth r + depth at_ <= f).
  { pose proof (depth_1 e). nia. }
  pose proof (c97_substitute_result x at_ r) as Ds.
  assert (RC : round_calls M (size at_) = 2 * (M * M * M) + 2 * (M * size at_) + M + 2).
  { unfold round_calls. cbn [Nat.pow]. lia. }
  cbn [w_taylor_loop taylor_loop].
  destruct (sn_of_u64 m (Z.max k 1)) as [kn| | |] eqn:Ek; unfold lift; cbn [kbind bind];
    try (cbn [fst snd]; split; [reflexivity|split; [lia|intros; discriminate]]).
  destruct (sn_mul m fa kn) as [fa'| | |] eqn:Ef; cbn [kbind bind];
    try (cbn [fst snd]; split; [reflexivity|split; [lia|intros; discriminate]]).
  rewrite (w_sub_spec x at_ f r ltac:(lia) Wr). cbn [kbind].
  pose proof (subst_wf x at_ r Wr Wat) as Wsub. pose proof (subst_le x at_ r Wr) as Ssub.
  assert (Ssub' : size (subst x at_ r) <= M * size at_) by nia.
  destruct (agg_le m (subst x at_ r) f Wsub ltac:(lia)) as (n1 & -> & N1).
  destruct (num_aggregate m (subst x at_ r)) as [s| | |] eqn:Es; cbn [kbind bind];
    try (cbn [fst snd]; split; [reflexivity|split; [nia|intros; discriminate]]).
  pose proof (agg_depth m _ Wsub s Es) as Das. pose proof (agg_size _ _ _ Es) as Sas.
  assert (Ws : wf s) by (exact (agg_wf _ _ _ Wsub Es)).
  assert (D2 : depth (e_div s (e_num fa')) <= f).
  { unfold e_div. rewrite depth_mk2. change (depth (e_num fa')) with 1. pose proof (depth_1 s). lia. }
  assert (Hfa' : num_ok fa') by (exact (sn_mul_ok _ _ _ _ Hfa (sn_of_u64_ok _ _ _ Ek) Ef)).
  assert (Wq : wf (e_div s (e_num fa'))) by (apply wf_mk2; [reflexivity|exact Ws|apply wf_num; exact Hfa']).
  destruct (agg_le m _ f Wq D2) as (n2 & -> & N2). unfold e_div in N2. rewrite size_mk2 in N2.
  change (size (e_num fa')) with 1 in N2.
  destruct (num_aggregate m (e_div s (e_num fa'))) as [c| | |]; cbn [kbind bind];
    try (cbn [fst snd]; split; [reflexivity|split; [nia|intros; discriminate]]).
  assert (Hd : wdepth (wn 1) r < f).
  { specialize (Hw 1). cbn [Nat.add] in Hw. pose proof (wd_bound (S j) e We) as B. pose proof (depth_1 e). nia. }
  destruct (w_deriv_spec m x r Wr f Hd) as (D1 & D3 & D4).
  destruct (w_deriv f m r x) as [rd nd]. cbn [fst snd] in D1, D3, D4. subst rd.
  assert (C3 : nd <= 2 * (M * M * M)).
  { assert (size r * size r <= M * M) by (apply Nat.mul_le_mono; exact Sr).
    assert (size r * size r * size r <= M * M * M) by (apply Nat.mul_le_mono; assumption). lia. }
  destruct (deriv m x r) as [r'| | |] eqn:Er; cbn [kbind bind];
    try (cbn [fst snd]; split; [reflexivity|split; [nia|intros; discriminate]]).
  assert (Wr' : wf r') by (exact (deriv_wf _ _ _ _ Wr Er)).
  destruct (IH (S j) (k + 1)%Z fa' r' (coef ++ [c])%list Wr' Hfa') as (I1 & I2 & I3).
  - lia.
  - intros i. pose proof (deriv_wd m x i r Wr r' Er) as W1. specialize (Hw (S i)).
    replace (i + S j) with (S i + j) by lia. lia.
  - intros i d Hi Hdn. apply (HM (S i) d); [lia|]. cbn [deriv_n]. rewrite Er. exact Hdn.
  - specialize (D4 r' eq_refl).
    destruct (w_taylor_loop f m x at_ n (k + 1) fa' r' (coef ++ [c])) as [rr nn]. cbn [fst snd] in *. subst rr.
    split; [reflexivity|]. split; [nia|]. intros cs z Hz _. destruct n as [|n].
    + cbn [taylor_loop] in Hz. injection Hz as _ <-. lia.
    + specialize (I3 cs z Hz ltac:(lia)). lia.
Qed.

(** [taylor_expansion] of order n: if none of the derivatives it computes (the 0-th to the n-th)
    has more than M nodes and the point has p, then it makes at most
    (n+1) (2 M^3 + 2 M p + M + 2) calls; and it makes at least as many as its residual has nodes *)
Theorem c98_taylor m e x at_ n M f : wf e -> wf at_ -> (n + 2) * (n + 2) * depth e + depth at_ <= f ->
  (forall k d, k <= n -> deriv_n m x k e = Ok d -> size d <= M) ->
  fst (w_taylor f m e x at_ (Z.of_nat n)) = taylor_var m e x at_ (Z.of_nat n) /\
  snd (w_taylor f m e x at_ (Z.of_nat n)) <= (n + 1) * round_calls M (size at_) /\
  (forall t, taylor_var m e x at_ (Z.of_nat n) = Ok t -> size (ex_residual t) <= snd (w_taylor f m e x at_ (Z.of_nat n))).
Proof.
  intros We Wat Hf HM. unfold w_taylor, taylor_var. replace (Z.to_nat (Z.of_nat n + 1)) with (S n) by lia.
  destruct (w_taylor_go m x at_ f e (S n) M We Wat ltac:(replace (S n + 1) with (n + 2) by lia; exact Hf)
    (S n) 0 0%Z (sn_of_i64 1) e [] We ltac:(vm_compute; intuition discriminate) eq_refl) as (A & B & C).
  - intros i. rewrite Nat.add_0_r. lia.
  - intros i d Hi Hd. apply (HM i d); [lia|exact Hd].
  - destruct (w_taylor_loop f m x at_ (S n) 0 (sn_of_i64 1) e []) as [r c]. cbn [fst snd] in *. subst r.
    destruct (taylor_loop m x at_ (S n) 0 (sn_of_i64 1) e []) as [[cs z]| | |]; cbn [kbind bind lift fst snd];
      (split; [reflexivity|split; [lia|]]); intros t Ht; try discriminate.
    injection Ht as <-. cbn [ex_residual]. specialize (C cs z eq_refl ltac:(lia)). lia.
Qed.

(** so the work can be exponential in the order: exp(x)*exp(x) takes at least 2^(n+1) calls *)
Theorem c98_taylor_exponential at_ n f : wf at_ -> let e := e_mul (e_exp (e_var "x")) (e_exp (e_var "x")) in
  (n + 2) * (n + 2) * 3 + depth at_ <= f ->
  2 ^ S n <= snd (w_taylor f Release e "x" at_ (Z.of_nat n)).
Proof.
  intros Wat e Hf. destruct (c56_exponential_residual at_ n Wat) as (t & Ht & St).
  assert (We : wf e) by (unfold e, e_mul, e_exp; repeat first [apply wf_mk2; [reflexivity| |] | apply wf_mk1; [reflexivity|] | apply wf_var]).
  destruct (c98_taylor Release e "x" at_ n ((2 * size e) ^ (2 ^ n)) f We Wat Hf) as (_ & _ & L).
  - intros k d Hk Hd. destruct (c56_iterated Release "x" k e d We Hd) as [B _].
    assert ((2 * size e) ^ (2 ^ k) <= (2 * size e) ^ (2 ^ n)).
    { apply Nat.pow_le_mono_r; [cbn; lia|]. apply Nat.pow_le_mono_r; [lia|exact Hk]. }
    lia.
  - fold e in Ht. change (taylor_expansion Release e (e_var "x") at_ (Z.of_nat n)) with
      (let* t := taylor_var Release e "x" at_ (Z.of_nat n) in Ok (@ROk expansion taylor_error t)) in Ht.
    fold e in Ht. destruct (taylor_var Release e "x" at_ (Z.of_nat n)) as [t'| | |] eqn:Hb; try discriminate Ht.
    injection Ht as ->. specialize (L t eq_refl). rewrite St in L.
    assert (2 ^ S n <> 0) by (apply Nat.pow_nonzero; discriminate). lia.
Qed.

(** ** a non-trivial case of every hypothesis *)
Definition c98_tree : expr := e_pow (e_add (e_var "x") (e_of_i64 1)) (e_sin (e_var "x")).
Lemma c98_tree_wf : wf c98_tree.
Proof.
  assert (W1 : wf (e_of_i64 1)) by (apply wf_num; vm_compute; intuition discriminate).
  unfold c98_tree, e_pow, e_add, e_sin.
  repeat first [assumption | apply wf_mk1; [reflexivity|] | apply wf_mk2; [reflexivity| |] | apply wf_var].
Qed.
Example c98_witness : wf c98_tree /\ size c98_tree = 6 /\ snd (w_aggregate 3 Debug c98_tree) = 6 /\
  snd (w_subst 3 c98_tree "x" (e_of_i64 2)) = 6 /\ snd (w_deriv 12 Debug c98_tree "x") = 39 /\
  (exists t, fst (w_taylor 30 Debug c98_tree "x" (e_of_i64 2) 1) = Ok t).
Proof. split; [exact c98_tree_wf|]. repeat split; try (vm_compute; reflexivity). eexists. vm_compute. reflexivity. Qed.

Print Assumptions c98_aggregate.
Print Assumptions c98_substitute.
Print Assumptions c98_derivative.
Print Assumptions c98_cubic.
Print Assumptions c98_taylor.
Print Assumptions c98_taylor_exponential.
