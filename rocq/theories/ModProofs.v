(** * ModProofs: release builds compute integer polynomials modulo 2^64 *)
From Coq Require Import ZArith List String Bool Lia Lra.
From Coq Require Import Reals.
From Coquelicot Require Import Coquelicot.
From Verif Require Import Base Float Rational SmartNum Ast Compute Spec SpecTree SpecR SpecInt SpecMod.
From Verif Require Import BaseProofs NumProofs NumProofs2 TreeProofs TreeProofs2 TreeProofs3 TreeProofs4 TreeProofs5.
From Verif Require Import RealProofs RealDeriv RealDeriv2 RealTaylor GradProofs IntProofs.
Import ListNotations.
Open Scope R_scope.
Open Scope res_scope.

Definition P64 : R := IZR two64.
Definition env := string -> R.
(** equal up to 2^64 times an integer polynomial *)
Definition meq (f g : env -> R) : Prop := exists q, zpoly q /\ forall rho, f rho = g rho + P64 * q rho.

Lemma zp_neg f : zpoly f -> zpoly (fun rho => - f rho).
Proof.
  intros H. apply (zp_ext (fun rho => IZR (-1) * f rho)).
  - intros rho. ring.
  - apply zp_mul; [apply zp_const|exact H].
Qed.
Lemma meq_refl f : meq f f.
Proof. exists (fun _ => IZR 0). split; [apply zp_const|]. intros rho. ring. Qed.
Lemma meq_ext f g : (forall rho, f rho = g rho) -> meq f g.
Proof. intros H. exists (fun _ => IZR 0). split; [apply zp_const|]. intros rho. rewrite H. ring. Qed.
Lemma meq_trans f g h : meq f g -> meq g h -> meq f h.
Proof.
  intros (q & Zq & Hq) (r & Zr & Hr). exists (fun rho => q rho + r rho). split; [apply zp_add; assumption|].
  intros rho. rewrite Hq, Hr. ring.
Qed.
Lemma meq_neg f g : meq f g -> meq (fun rho => - f rho) (fun rho => - g rho).
Proof.
  intros (q & Zq & Hq). exists (fun rho => - q rho). split; [apply zp_neg; assumption|]. intros rho. rewrite Hq. ring.
Qed.
Lemma meq_add f g f' g' : meq f f' -> meq g g' -> meq (fun rho => f rho + g rho) (fun rho => f' rho + g' rho).
Proof.
  intros (q & Zq & Hq) (r & Zr & Hr). exists (fun rho => q rho + r rho). split; [apply zp_add; assumption|].
  intros rho. rewrite Hq, Hr. ring.
Qed.
Lemma meq_sub f g f' g' : meq f f' -> meq g g' -> meq (fun rho => f rho - g rho) (fun rho => f' rho - g' rho).
Proof. intros H1 H2. exact (meq_add _ _ _ _ H1 (meq_neg _ _ H2)). Qed.
Lemma meq_mul f g f' g' : zpoly f' -> zpoly g' -> meq f f' -> meq g g' ->
  meq (fun rho => f rho * g rho) (fun rho => f' rho * g' rho).
Proof.
  intros Zf Zg (q & Zq & Hq) (r & Zr & Hr).
  exists (fun rho => (q rho * g' rho + f' rho * r rho) + IZR two64 * (q rho * r rho)). split.
  - apply zp_add; [apply zp_add; apply zp_mul; assumption|]. apply zp_mul; [apply zp_const|apply zp_mul; assumption].
  - intros rho. rewrite Hq, Hr. unfold P64. ring.
Qed.

(** ** numbers *)
Lemma wrap_cong z : exists k, (wrap_i64 z = z + two64 * k)%Z.
Proof.
  unfold wrap_i64. exists (- ((z + two63) / two64))%Z.
  pose proof (Z.div_mod (z + two63) two64 ltac:(discriminate)). lia.
Qed.
Lemma ovf_release z : ovf_i64 Release z = Ok (wrap_i64 z).
Proof. unfold ovf_i64. destruct (in_i64 z) eqn:I; [|reflexivity]. rewrite wrap_in by exact I. reflexivity. Qed.
Lemma wrap_in_i64 z : in_i64 (wrap_i64 z) = true.
Proof. apply in_i64_iff. apply wrap_i64_range. Qed.

Lemma sn_neg_rel y : sn_neg Release (sn_of_i64 y) = Ok (sn_of_i64 (wrap_i64 (- y))).
Proof.
  unfold sn_neg. rewrite approx_int, guard_false. cbn [sn_of_i64 sn_of_val val_of_i64 nval val_neg].
  unfold i64_neg. rewrite ovf_release. cbn [bind]. rewrite wrap_val_int. reflexivity.
Qed.
Lemma is_zero_int y : in_i64 y = true -> sn_is_zero (sn_of_i64 y) = (y =? 0)%Z.
Proof.
  intros _. unfold sn_is_zero, sn_of_i64, sn_of_val, val_of_i64. cbn [ntag val_is_zero val_is_one].
  destruct (Z.eqb_spec y 0) as [->|]; [reflexivity|]. destruct (y =? 1)%Z; reflexivity.
Qed.
Lemma is_one_int y : in_i64 y = true -> sn_is_one (sn_of_i64 y) = (y =? 1)%Z.
Proof.
  intros _. unfold sn_is_one, sn_of_i64, sn_of_val, val_of_i64. cbn [ntag val_is_zero val_is_one].
  destruct (Z.eqb_spec y 1) as [->|]; [reflexivity|]. destruct (y =? 0)%Z; reflexivity.
Qed.
Lemma sn_add_rel y z : in_i64 y = true -> in_i64 z = true ->
  sn_add Release (sn_of_i64 y) (sn_of_i64 z) = Ok (sn_of_i64 (wrap_i64 (y + z))).
Proof.
  intros Hy Hz. unfold sn_add. rewrite !is_zero_int by assumption.
  destruct (Z.eqb_spec y 0) as [->|]; [rewrite wrap_in by exact Hz; reflexivity|].
  destruct (Z.eqb_spec z 0) as [->|]; [rewrite Z.add_0_r, wrap_in by exact Hy; reflexivity|].
  rewrite !approx_int. cbn [orb]. rewrite !guard_false. cbn [sn_of_i64 sn_of_val val_of_i64 nval val_add].
  unfold i64_add. rewrite ovf_release. cbn [bind]. rewrite wrap_val_int. reflexivity.
Qed.
Lemma sn_sub_rel y z : in_i64 y = true -> in_i64 z = true ->
  sn_sub Release (sn_of_i64 y) (sn_of_i64 z) = Ok (sn_of_i64 (wrap_i64 (y - z))).
Proof.
  intros Hy Hz. unfold sn_sub. rewrite !is_zero_int by assumption.
  destruct (Z.eqb_spec y 0) as [->|]; [apply sn_neg_rel|].
  destruct (Z.eqb_spec z 0) as [->|]; [rewrite Z.sub_0_r, wrap_in by exact Hy; reflexivity|].
  rewrite !approx_int. cbn [orb]. rewrite !guard_false. cbn [sn_of_i64 sn_of_val val_of_i64 nval val_sub].
  unfold i64_sub. rewrite ovf_release. cbn [bind]. rewrite wrap_val_int. reflexivity.
Qed.
Lemma sn_mul_rel y z : in_i64 y = true -> in_i64 z = true ->
  sn_mul Release (sn_of_i64 y) (sn_of_i64 z) = Ok (sn_of_i64 (wrap_i64 (y * z))).
Proof.
  intros Hy Hz. unfold sn_mul. rewrite !is_one_int by assumption.
  destruct (Z.eqb_spec y 1) as [->|]; [rewrite Z.mul_1_l, wrap_in by exact Hz; reflexivity|].
  destruct (Z.eqb_spec z 1) as [->|]; [rewrite Z.mul_1_r, wrap_in by exact Hy; reflexivity|].
  rewrite !approx_int. cbn [orb andb]. rewrite !guard_false, !nval_int.
  unfold val_mul. cbn [val_is_zero].
  destruct (Z.eqb_spec y 0) as [->|]; [reflexivity|].
  destruct (Z.eqb_spec z 0) as [->|]; [rewrite Z.mul_0_r; reflexivity|].
  cbn [orb]. unfold i64_mul. rewrite ovf_release. cbn [bind]. rewrite wrap_val_int. reflexivity.
Qed.
Definition zop (t : optype) (y z : Z) : Z :=
  match t with OAdd => y + z | OSub => y - z | _ => y * z end%Z.
Lemma sn_op_rel t n k v : intnum n -> intnum k -> t = OAdd \/ t = OSub \/ t = OMul -> sn_op Release t n k = Ok v ->
  exists y z, in_i64 y = true /\ in_i64 z = true /\ n = sn_of_i64 y /\ k = sn_of_i64 z /\ v = sn_of_i64 (wrap_i64 (zop t y z)).
Proof.
  intros (y & Hy & ->) (z & Hz & ->) Ht H. exists y, z. refine (conj Hy (conj Hz (conj eq_refl (conj eq_refl _)))).
  destruct Ht as [-> | [-> | ->]]; cbn [sn_op zop] in *;
    rewrite ?(sn_add_rel y z Hy Hz), ?(sn_sub_rel y z Hy Hz), ?(sn_mul_rel y z Hy Hz) in H; congruence.
Qed.

(** ** values *)
Definition vl (e : expr) (rho : env) : R := match eval rho e with Some v => v | None => 0 end.
Lemma ip_eval e : int_poly e -> forall rho, eval rho e = Some (vl e rho).
Proof.
  unfold vl. induction 1; intros rho.
  - unfold e_of_i64, e_num. rewrite eval_num, num_R_int. reflexivity.
  - unfold e_var. rewrite eval_var. reflexivity.
  - unfold e_neg. rewrite eval_mk1, IHint_poly. reflexivity.
  - unfold e_add. rewrite eval_mk2, IHint_poly1, IHint_poly2. reflexivity.
  - unfold e_sub. rewrite eval_mk2, IHint_poly1, IHint_poly2. reflexivity.
  - unfold e_mul. rewrite eval_mk2, IHint_poly1, IHint_poly2. reflexivity.
Qed.
Lemma vl_num z rho : vl (e_of_i64 z) rho = IZR z.
Proof. unfold vl, e_of_i64, e_num. rewrite eval_num, num_R_int. reflexivity. Qed.
Lemma vl_zero rho : vl e_zero rho = 0. Proof. exact (vl_num 0 rho). Qed.
Lemma vl_one rho : vl e_one rho = 1. Proof. exact (vl_num 1 rho). Qed.
Lemma vl_var x rho : vl (e_var x) rho = rho x.
Proof. unfold vl, e_var. rewrite eval_var. reflexivity. Qed.
Lemma vl_neg a rho : int_poly a -> vl (e_neg a) rho = - vl a rho.
Proof. intros H. unfold vl at 1, e_neg. rewrite eval_mk1, (ip_eval a H). reflexivity. Qed.
Lemma vl_add a b rho : int_poly a -> int_poly b -> vl (e_add a b) rho = vl a rho + vl b rho.
Proof. intros H H'. unfold vl at 1, e_add. rewrite eval_mk2, (ip_eval a H), (ip_eval b H'). reflexivity. Qed.
Lemma vl_sub a b rho : int_poly a -> int_poly b -> vl (e_sub a b) rho = vl a rho - vl b rho.
Proof. intros H H'. unfold vl at 1, e_sub. rewrite eval_mk2, (ip_eval a H), (ip_eval b H'). reflexivity. Qed.
Lemma vl_mul a b rho : int_poly a -> int_poly b -> vl (e_mul a b) rho = vl a rho * vl b rho.
Proof. intros H H'. unfold vl at 1, e_mul. rewrite eval_mk2, (ip_eval a H), (ip_eval b H'). reflexivity. Qed.
Lemma vl_zp e : int_poly e -> zpoly (vl e).
Proof.
  induction 1.
  - apply (zp_ext (fun _ => IZR z)); [intros; symmetry; apply vl_num|apply zp_const].
  - apply (zp_ext (fun rho => rho x)); [intros; symmetry; apply vl_var|apply zp_var].
  - apply (zp_ext (fun rho => - vl a rho)); [intros; symmetry; apply vl_neg; assumption|apply zp_neg; assumption].
  - apply (zp_ext (fun rho => vl a rho + vl b rho)); [intros; symmetry; apply vl_add; assumption|apply zp_add; assumption].
  - apply (zp_ext (fun rho => vl a rho + - vl b rho)); [intros; symmetry; apply vl_sub; assumption|].
    apply zp_add; [assumption|apply zp_neg; assumption].
  - apply (zp_ext (fun rho => vl a rho * vl b rho)); [intros; symmetry; apply vl_mul; assumption|apply zp_mul; assumption].
Qed.
Lemma ip_wf e : int_poly e -> wf e.
Proof.
  induction 1; try (apply wf_mk2; [reflexivity|assumption..]); try (apply wf_mk1; [reflexivity|assumption]).
  - apply wf_num', sn_of_i64_ok. assumption.
  - apply wf_var.
Qed.
Lemma ip_num_inv n k : int_poly (Expr (Operand (Num n)) k) -> intnum n /\ k = [].
Proof. intros H. inversion H; subst. split; [eexists; split; [eassumption|reflexivity]|reflexivity]. Qed.
Lemma ip_neg_inv op r c : int_poly (Expr (Operator op) (r ++ [c])) -> descriptor op = ONeg ->
  int_poly c /\ Expr (Operator op) (r ++ [c]) = e_neg c.
Proof.
  intros H D. inversion H; subst; try discriminate D.
  match goal with E : [_] = (_ ++ [_])%list |- _ => symmetry in E; apply app1_inv in E as [-> ->] end. auto.
Qed.
Lemma vl_is_zero e : int_poly e -> is_zero e = true -> forall rho, vl e rho = 0.
Proof.
  intros H Z rho. destruct e as [[op|[n|x]] k]; try discriminate Z. apply ip_num_inv in H as [(z & Hz & ->) ->].
  change (vl (e_of_i64 z) rho = 0). rewrite vl_num. change (sn_is_zero (sn_of_i64 z) = true) in Z.
  rewrite is_zero_int in Z by exact Hz. apply Z.eqb_eq in Z as ->. reflexivity.
Qed.
Lemma vl_is_one e : int_poly e -> is_one e = true -> forall rho, vl e rho = 1.
Proof.
  intros H Z rho. destruct e as [[op|[n|x]] k]; try discriminate Z. apply ip_num_inv in H as [(z & Hz & ->) ->].
  change (vl (e_of_i64 z) rho = 1). rewrite vl_num. change (sn_is_one (sn_of_i64 z) = true) in Z.
  rewrite is_one_int in Z by exact Hz. apply Z.eqb_eq in Z as ->. reflexivity.
Qed.

(** ** one rule *)
Lemma wrap_meq z : meq (fun _ => IZR (wrap_i64 z)) (fun _ => IZR z).
Proof.
  destruct (wrap_cong z) as [k E]. exists (fun _ => IZR k). split; [apply zp_const|].
  intros rho. rewrite E, plus_IZR, mult_IZR. reflexivity.
Qed.
Lemma ar1_mod a z : int_poly a -> ar1 Release ONeg a z -> int_poly z /\ meq (vl z) (fun rho => - vl a rho).
Proof.
  intros Ha H. inversion H; subst.
  - apply ip_num_inv in Ha as [(y & Hy & ->) ->]. rewrite sn_neg_rel in H0. injection H0 as <-.
    change (e_num (sn_of_i64 (wrap_i64 (- y)))) with (e_of_i64 (wrap_i64 (- y))).
    split; [apply ip_num, wrap_in_i64|].
    apply (meq_trans _ (fun _ => IZR (wrap_i64 (- y)))); [apply meq_ext; intros; apply vl_num|].
    apply (meq_trans _ (fun _ => IZR (- y))); [apply wrap_meq|].
    apply meq_ext. intros rho. change (IZR (- y) = - vl (e_of_i64 y) rho). rewrite vl_num, opp_IZR. reflexivity.
  - destruct (ip_neg_inv _ _ _ Ha H0) as [Hc E]. split; [exact Hc|]. apply meq_ext. intros rho.
    rewrite E, vl_neg by exact Hc. ring.
  - split; [apply ip_neg; exact Ha|]. apply meq_ext. intros rho. apply vl_neg. exact Ha.
Qed.
Definition rop (t : optype) (y z : R) : R := match t with OAdd => y + z | OSub => y - z | _ => y * z end.
Lemma ar2_mod t l r z : int_poly l -> int_poly r -> t = OAdd \/ t = OSub \/ t = OMul -> ar2 Release t l r z ->
  int_poly z /\ meq (vl z) (fun rho => rop t (vl l rho) (vl r rho)).
Proof.
  intros Hl Hr Ht H. destruct H; try (destruct Ht as [?|[?|?]]; discriminate); cbn [rop].
  - apply ip_num_inv in Hl as [Ix ->]. apply ip_num_inv in Hr as [Iy ->].
    destruct (sn_op_rel t x y v Ix Iy Ht H0) as (a & b & Ha & Hb & -> & -> & ->).
    change (e_num (sn_of_i64 (wrap_i64 (zop t a b)))) with (e_of_i64 (wrap_i64 (zop t a b))).
    split; [apply ip_num, wrap_in_i64|].
    apply (meq_trans _ (fun _ => IZR (wrap_i64 (zop t a b)))); [apply meq_ext; intros; apply vl_num|].
    apply (meq_trans _ (fun _ => IZR (zop t a b))); [apply wrap_meq|].
    apply meq_ext. intros rho. change (IZR (zop t a b) = rop t (vl (e_of_i64 a) rho) (vl (e_of_i64 b) rho)).
    rewrite !vl_num. destruct Ht as [-> | [-> | ->]]; cbn [zop rop]; [apply plus_IZR|apply minus_IZR|apply mult_IZR].
  - split; [exact Hr|]. apply meq_ext. intros rho. rewrite (vl_is_zero l Hl) by assumption. ring.
  - split; [exact Hl|]. apply meq_ext. intros rho. rewrite (vl_is_zero r Hr) by assumption. ring.
  - split; [apply ip_add; assumption|]. apply meq_ext. intros rho. apply vl_add; assumption.
  - split; [apply ip_neg; assumption|]. apply meq_ext. intros rho. rewrite vl_neg by assumption. rewrite (vl_is_zero l Hl) by assumption. ring.
  - split; [exact Hl|]. apply meq_ext. intros rho. rewrite (vl_is_zero r Hr) by assumption. ring.
  - split; [apply ip_sub; assumption|]. apply meq_ext. intros rho. apply vl_sub; assumption.
  - split; [exact (ip_num 0 eq_refl)|]. apply meq_ext. intros rho. rewrite vl_zero. apply orb_true_iff in H0 as [Z|Z].
    + rewrite (vl_is_zero l Hl Z). ring.
    + rewrite (vl_is_zero r Hr Z). ring.
  - split; [exact Hr|]. apply meq_ext. intros rho. rewrite (vl_is_one l Hl) by assumption. ring.
  - split; [exact Hl|]. apply meq_ext. intros rho. rewrite (vl_is_one r Hr) by assumption. ring.
  - split; [apply ip_mul; assumption|]. apply meq_ext. intros rho. apply vl_mul; assumption.
Qed.

(** ** simplification *)
Lemma agg_mod e : int_poly e -> forall z, num_aggregate Release e = Ok z -> int_poly z /\ meq (vl z) (vl e).
Proof.
  induction 1; intros z' E.
  - injection E as <-. split; [apply ip_num; assumption|apply meq_refl].
  - injection E as <-. split; [apply ip_var|apply meq_refl].
  - unfold e_neg in E. rewrite agg_mk1 in E by reflexivity. inv_bind E. apply rule1_ar in E; [|reflexivity].
    destruct (IHint_poly _ Hb) as [I1 M]. destruct (ar1_mod _ _ I1 E) as [I2 M2]. split; [exact I2|].
    apply (meq_trans _ _ _ M2). apply (meq_trans _ _ _ (meq_neg _ _ M)). apply meq_ext. intros rho. symmetry. apply vl_neg. assumption.
  - unfold e_add in E. rewrite agg_mk2 in E by reflexivity. do 2 inv_bind E. apply rule2_ar in E; [|reflexivity].
    destruct (IHint_poly2 _ Hb) as [Ir Mr]. destruct (IHint_poly1 _ Hb0) as [Il Ml].
    destruct (ar2_mod OAdd _ _ _ Il Ir ltac:(auto) E) as [I2 M2]. split; [exact I2|].
    apply (meq_trans _ _ _ M2). cbn [rop]. apply (meq_trans _ _ _ (meq_add _ _ _ _ Ml Mr)).
    apply meq_ext. intros rho. symmetry. apply vl_add; assumption.
  - unfold e_sub in E. rewrite agg_mk2 in E by reflexivity. do 2 inv_bind E. apply rule2_ar in E; [|reflexivity].
    destruct (IHint_poly2 _ Hb) as [Ir Mr]. destruct (IHint_poly1 _ Hb0) as [Il Ml].
    destruct (ar2_mod OSub _ _ _ Il Ir ltac:(auto) E) as [I2 M2]. split; [exact I2|].
    apply (meq_trans _ _ _ M2). cbn [rop]. apply (meq_trans _ _ _ (meq_sub _ _ _ _ Ml Mr)).
    apply meq_ext. intros rho. symmetry. apply vl_sub; assumption.
  - unfold e_mul in E. rewrite agg_mk2 in E by reflexivity. do 2 inv_bind E. apply rule2_ar in E; [|reflexivity].
    destruct (IHint_poly2 _ Hb) as [Ir Mr]. destruct (IHint_poly1 _ Hb0) as [Il Ml].
    destruct (ar2_mod OMul _ _ _ Il Ir ltac:(auto) E) as [I2 M2]. split; [exact I2|].
    apply (meq_trans _ _ _ M2). cbn [rop].
    apply (meq_trans _ _ _ (meq_mul _ _ _ _ (vl_zp _ H) (vl_zp _ H0) Ml Mr)).
    apply meq_ext. intros rho. symmetry. apply vl_mul; assumption.
Qed.

(** ** derivatives *)
(** [f'] is the partial derivative of [f] with respect to [x] everywhere *)
Definition pderiv (x : string) (f f' : env -> R) : Prop :=
  forall rho, is_derive (fun t => f (upd rho x t)) (rho x) (f' rho).
Lemma pd_const x c : pderiv x (fun _ => c) (fun _ => 0).
Proof. intros rho. apply (is_derive_const (K := R_AbsRing) (V := R_NormedModule)). Qed.
Lemma pd_add x f g f' g' : pderiv x f f' -> pderiv x g g' -> pderiv x (fun rho => f rho + g rho) (fun rho => f' rho + g' rho).
Proof. intros H1 H2 rho. apply (is_derive_plus (K := R_AbsRing) (V := R_NormedModule)); [apply H1|apply H2]. Qed.
Lemma pd_mul x f g f' g' : (forall a b, (forall y, a y = b y) -> f a = f b) -> (forall a b, (forall y, a y = b y) -> g a = g b) ->
  pderiv x f f' -> pderiv x g g' ->
  pderiv x (fun rho => f rho * g rho) (fun rho => f' rho * g rho + f rho * g' rho).
Proof.
  intros Ef Eg H1 H2 rho.
  pose proof (is_derive_mult (K := R_AbsRing) (fun t => f (upd rho x t)) (fun t => g (upd rho x t)) (rho x) _ _ (H1 rho) (H2 rho)) as H.
  assert (forall n m : R, mult n m = mult m n) as C. { intros n m. unfold mult. cbn. ring. }
  specialize (H C). unfold plus, mult in H. cbn in H.
  rewrite (Ef (upd rho x (rho x)) rho (upd_self rho x)), (Eg (upd rho x (rho x)) rho (upd_self rho x)) in H. exact H.
Qed.
Lemma pd_ext x f g f' g' : (forall rho, f rho = g rho) -> (forall rho, f' rho = g' rho) -> pderiv x f f' -> pderiv x g g'.
Proof.
  intros E E' H rho. rewrite <- E'. apply (is_derive_ext (fun t => f (upd rho x t))); [intros; apply E|apply H].
Qed.
Lemma zp_congr f : zpoly f -> forall a b, (forall y, a y = b y) -> f a = f b.
Proof.
  induction 1; intros a b E; auto.
  - rewrite (IHzpoly1 a b E), (IHzpoly2 a b E). reflexivity.
  - rewrite (IHzpoly1 a b E), (IHzpoly2 a b E). reflexivity.
  - rewrite <- !H. apply IHzpoly. exact E.
Qed.
Lemma pd_zp x f : zpoly f -> exists f', zpoly f' /\ pderiv x f f'.
Proof.
  induction 1.
  - exists (fun _ => IZR 0). split; [apply zp_const|]. apply (pd_const x (IZR z)).
  - destruct (String.eqb_spec x0 x) as [->|N].
    + exists (fun _ => IZR 1). split; [apply zp_const|]. intros rho.
      apply (is_derive_ext (fun t => t)); [intros; rewrite upd_same; reflexivity|].
      apply (is_derive_id (K := R_AbsRing)).
    + exists (fun _ => IZR 0). split; [apply zp_const|]. intros rho.
      apply (is_derive_ext (fun t => rho x0)); [intros; rewrite upd_other by exact N; reflexivity|].
      apply (is_derive_const (K := R_AbsRing) (V := R_NormedModule)).
  - destruct IHzpoly1 as (f' & Zf & Df), IHzpoly2 as (g' & Zg & Dg). exists (fun rho => f' rho + g' rho).
    split; [apply zp_add; assumption|apply pd_add; assumption].
  - destruct IHzpoly1 as (f' & Zf & Df), IHzpoly2 as (g' & Zg & Dg). exists (fun rho => f' rho * g rho + f rho * g' rho).
    split; [apply zp_add; apply zp_mul; assumption|]. apply pd_mul; try assumption; apply zp_congr; assumption.
  - destruct IHzpoly as (f' & Zf & Df). exists f'. split; [exact Zf|]. apply (pd_ext x f g f' f'); auto.
Qed.
Lemma pd_unique x f f' g' : pderiv x f f' -> pderiv x f g' -> forall rho, f' rho = g' rho.
Proof. intros H1 H2 rho. rewrite <- (is_derive_unique _ _ _ (H1 rho)). apply is_derive_unique, H2. Qed.
(** congruent polynomials have congruent derivatives *)
Lemma meq_pd x f g f' g' : zpoly g -> meq f g -> pderiv x f f' -> pderiv x g g' -> meq f' g'.
Proof.
  intros Zg (q & Zq & Hq) Df Dg. destruct (pd_zp x q Zq) as (q' & Zq' & Dq). exists q'. split; [exact Zq'|].
  apply (pd_unique x f); [exact Df|].
  apply (pd_ext x (fun rho => g rho + P64 * q rho) f (fun rho => g' rho + (0 * q rho + P64 * q' rho)));
    [intros; symmetry; apply Hq|intros; ring|].
  apply pd_add; [exact Dg|]. apply pd_mul; [reflexivity|apply zp_congr; exact Zq|apply (pd_const x P64)|exact Dq].
Qed.

Lemma deriv_mod x e : int_poly e -> forall d, deriv Release x e = Ok d ->
  int_poly d /\ exists D, zpoly D /\ pderiv x (vl e) D /\ meq (vl d) D.
Proof.
  induction 1; intros d E.
  - injection E as <-. split; [exact (ip_num 0 eq_refl)|]. exists (fun _ => IZR 0). split; [apply zp_const|].
    split; [|apply meq_ext; intros; apply vl_zero].
    apply (pd_ext x (fun _ => IZR z) _ (fun _ => 0)); [intros; symmetry; apply vl_num|reflexivity|apply pd_const].
  - destruct (pd_zp x (vl (e_var x0)) (vl_zp _ (ip_var x0))) as (D & ZD & HD).
    unfold e_var in E. rewrite deriv_var in E. injection E as <-. destruct (String.eqb_spec x x0) as [->|N].
    + split; [exact (ip_num 1 eq_refl)|]. exists (fun _ => IZR 1). split; [apply zp_const|].
      split; [|apply meq_ext; intros; apply vl_one]. intros rho.
      apply (is_derive_ext (fun t => t)); [intros; rewrite vl_var, upd_same; reflexivity|].
      apply (is_derive_id (K := R_AbsRing)).
    + split; [exact (ip_num 0 eq_refl)|]. exists (fun _ => IZR 0). split; [apply zp_const|].
      split; [|apply meq_ext; intros; apply vl_zero]. intros rho.
      apply (is_derive_ext (fun t => rho x0)); [intros; rewrite vl_var, upd_other by congruence; reflexivity|].
      apply (is_derive_const (K := R_AbsRing) (V := R_NormedModule)).
  - unfold e_neg in E. rewrite deriv_mk1 in E by reflexivity. inv_bind E. destruct (IHint_poly _ Hb) as (Ia & D & ZD & HD & M).
    cbn [raw1] in E. destruct (agg_mod _ (ip_neg _ Ia) _ E) as [Id Md]. split; [exact Id|].
    exists (fun rho => 0 * vl a rho + IZR (-1) * D rho).
    split; [apply zp_add; apply zp_mul; try apply zp_const; try assumption; apply (vl_zp a); assumption|]. split.
    + apply (pd_ext x (fun rho => IZR (-1) * vl a rho) _ (fun rho => 0 * vl a rho + IZR (-1) * D rho));
        [intros; rewrite vl_neg by assumption; ring|reflexivity|].
      apply pd_mul; [reflexivity|apply zp_congr, vl_zp; assumption|apply (pd_const x (IZR (-1)))|exact HD].
    + apply (meq_trans _ _ _ Md). apply (meq_trans _ (fun rho => - vl a0 rho)); [apply meq_ext; intros; apply vl_neg; assumption|].
      apply (meq_trans _ _ _ (meq_neg _ _ M)). apply meq_ext. intros rho. ring.
  - unfold e_add in E. rewrite deriv_mk2 in E by reflexivity. do 2 inv_bind E.
    destruct (IHint_poly2 _ Hb) as (Ib & Db & Zb & HDb & Mb). destruct (IHint_poly1 _ Hb0) as (Ia & Da & Za & HDa & Ma).
    cbn [raw2] in E. destruct (agg_mod _ (ip_add _ _ Ia Ib) _ E) as [Id Md]. split; [exact Id|].
    exists (fun rho => Da rho + Db rho). split; [apply zp_add; assumption|]. split.
    + apply (pd_ext x (fun rho => vl a rho + vl b rho) _ (fun rho => Da rho + Db rho)); [intros; symmetry; apply vl_add; assumption|reflexivity|].
      apply pd_add; assumption.
    + apply (meq_trans _ _ _ Md). eapply meq_trans; [apply meq_ext; intros; apply vl_add; assumption|]. apply meq_add; assumption.
  - unfold e_sub in E. rewrite deriv_mk2 in E by reflexivity. do 2 inv_bind E.
    destruct (IHint_poly2 _ Hb) as (Ib & Db & Zb & HDb & Mb). destruct (IHint_poly1 _ Hb0) as (Ia & Da & Za & HDa & Ma).
    cbn [raw2] in E. destruct (agg_mod _ (ip_sub _ _ Ia Ib) _ E) as [Id Md]. split; [exact Id|].
    exists (fun rho => Da rho + - Db rho). split; [apply zp_add; [assumption|apply zp_neg; assumption]|]. split.
    + apply (pd_ext x (fun rho => vl a rho + IZR (-1) * vl b rho) _ (fun rho => Da rho + (0 * vl b rho + IZR (-1) * Db rho)));
        [intros; rewrite vl_sub by assumption; ring|intros; ring|].
      apply pd_add; [assumption|].
      apply pd_mul; [reflexivity|apply zp_congr, vl_zp; assumption|apply (pd_const x (IZR (-1)))|exact HDb].
    + apply (meq_trans _ _ _ Md). eapply meq_trans; [apply meq_ext; intros; apply vl_sub; assumption|].
      exact (meq_sub _ _ _ _ Ma Mb).
  - unfold e_mul in E. rewrite deriv_mk2 in E by reflexivity. do 2 inv_bind E.
    destruct (IHint_poly2 _ Hb) as (Ib & Db & Zb & HDb & Mb). destruct (IHint_poly1 _ Hb0) as (Ia & Da & Za & HDa & Ma).
    cbn [raw2] in E.
    pose proof (ip_mul _ _ Ia H0) as I1. pose proof (ip_mul _ _ H Ib) as I2.
    destruct (agg_mod _ (ip_add _ _ I1 I2) _ E) as [Id Md]. split; [exact Id|].
    exists (fun rho => Da rho * vl b rho + vl a rho * Db rho).
    split; [apply zp_add; apply zp_mul; try assumption; apply vl_zp; assumption|]. split.
    + apply (pd_ext x (fun rho => vl a rho * vl b rho) _ (fun rho => Da rho * vl b rho + vl a rho * Db rho));
        [intros; symmetry; apply vl_mul; assumption|reflexivity|].
      apply pd_mul; try assumption; apply zp_congr, vl_zp; assumption.
    + apply (meq_trans _ _ _ Md). eapply meq_trans; [apply meq_ext; intros; apply vl_add; assumption|].
      apply meq_add.
      * eapply meq_trans; [apply meq_ext; intros; apply vl_mul; assumption|].
        apply meq_mul; try assumption; [apply vl_zp; assumption|apply meq_refl].
      * eapply meq_trans; [apply meq_ext; intros; apply vl_mul; assumption|].
        apply meq_mul; try assumption; [apply vl_zp; assumption|apply meq_refl].
Qed.

Lemma evalx_upd rho x t e s : evalx (upd rho x t) x e s = evalx rho x e s.
Proof.
  unfold evalx. rewrite (eval_ext (upd (upd rho x t) x s) (upd rho x s) e); [reflexivity|].
  intros y _. unfold upd. destruct (String.eqb y x); reflexivity.
Qed.
Lemma deriv_n_mod x e : int_poly e -> forall k d, deriv_n Release x k e = Ok d ->
  int_poly d /\ exists D, zpoly D /\ meq (vl d) D /\
    forall rho, Derive_n (evalx rho x e) k (rho x) = D rho /\ ex_derive_n (evalx rho x e) k (rho x).
Proof.
  intros He. induction k as [|k IH]; intros d E.
  - injection E as <-. split; [exact He|]. exists (vl e). split; [apply vl_zp; exact He|]. split; [apply meq_refl|].
    intros rho. split; [|exact I]. cbn [Derive_n]. unfold evalx, vl.
    rewrite (eval_ext (upd rho x (rho x)) rho e); [reflexivity|]. intros y _. apply upd_self.
  - apply deriv_n_snoc in E as (dk & Ek & E). destruct (IH _ Ek) as (Ik & Dk & Zk & Mk & Hk).
    destruct (deriv_mod x dk Ik d E) as (Id & D1 & Z1 & P1 & M1). split; [exact Id|].
    destruct (pd_zp x Dk Zk) as (D & ZD & PD). exists D. split; [exact ZD|]. split.
    + apply (meq_trans _ _ _ M1). exact (meq_pd x _ _ _ _ Zk Mk P1 PD).
    + intros rho. specialize (PD rho).
      assert (is_derive (Derive_n (evalx rho x e) k) (rho x) (D rho)) as HD.
      { apply (is_derive_ext (fun t => Dk (upd rho x t))); [|exact PD]. intros t. symmetry.
        pose proof (proj1 (Hk (upd rho x t))) as Q. rewrite upd_same in Q. rewrite <- Q.
        apply Derive_n_ext. intros s. symmetry. apply evalx_upd. }
      split; [cbn [Derive_n]; apply is_derive_unique; exact HD|]. cbn [ex_derive_n]. exists (D rho). exact HD.
Qed.

Lemma zp_int q : zpoly q -> forall rho : string -> Z, exists k, q (fun y => IZR (rho y)) = IZR k.
Proof.
  induction 1; intros rho.
  - exists z. reflexivity.
  - exists (rho x). reflexivity.
  - destruct (IHzpoly1 rho) as [a ->], (IHzpoly2 rho) as [b ->]. exists (a + b)%Z. rewrite plus_IZR. reflexivity.
  - destruct (IHzpoly1 rho) as [a ->], (IHzpoly2 rho) as [b ->]. exists (a * b)%Z. rewrite mult_IZR. reflexivity.
  - rewrite <- H. apply IHzpoly.
Qed.
Lemma wrap_unique y n k : in_i64 y = true -> (y = n + two64 * k)%Z -> y = wrap_i64 n.
Proof.
  intros I ->. apply in_i64_iff in I. unfold wrap_i64.
  replace (n + two63)%Z with ((n + two64 * k + two63) + (- k) * two64)%Z by ring.
  rewrite Z.mod_add by discriminate. rewrite Z.mod_small; [ring|]. unfold two63, two64 in *. lia.
Qed.
Lemma closed_num e : int_poly e -> (forall x, ~ occurs x e) -> forall z, num_aggregate Release e = Ok z ->
  exists y, in_i64 y = true /\ z = e_of_i64 y.
Proof.
  assert (forall t a x, occurs x a -> occurs x (mk1 t a)) as O1 by (intros; apply occurs_mk1; assumption).
  assert (forall t a b x, occurs x a -> occurs x (mk2 t a b)) as O2 by (intros; apply occurs_mk2; auto).
  assert (forall t a b x, occurs x b -> occurs x (mk2 t a b)) as O3 by (intros; apply occurs_mk2; auto).
  induction 1; intros Ho z' E.
  - injection E as <-. exists z. auto.
  - exfalso. apply (Ho x). exists []. apply sub_refl.
  - unfold e_neg in *. rewrite agg_mk1 in E by reflexivity. inv_bind E.
    destruct (IHint_poly (fun x Hx => Ho x (O1 ONeg a x Hx)) _ Hb) as (y & Iy & ->).
    cbn -[sn_neg e_of_i64] in E. unfold neg_eval_rule in E. cbn -[sn_neg] in E. rewrite sn_neg_rel in E. injection E as <-.
    exists (wrap_i64 (- y)). split; [apply wrap_in_i64|reflexivity].
  - unfold e_add in *. rewrite agg_mk2 in E by reflexivity. do 2 inv_bind E.
    destruct (IHint_poly2 (fun x Hx => Ho x (O3 OAdd a b x Hx)) _ Hb) as (y & Iy & ->).
    destruct (IHint_poly1 (fun x Hx => Ho x (O2 OAdd a b x Hx)) _ Hb0) as (w & Iw & ->).
    cbn -[sn_add e_of_i64] in E. unfold add_eval_rule in E. cbn -[sn_add] in E. rewrite sn_add_rel in E by assumption. injection E as <-.
    exists (wrap_i64 (w + y)). split; [apply wrap_in_i64|reflexivity].
  - unfold e_sub in *. rewrite agg_mk2 in E by reflexivity. do 2 inv_bind E.
    destruct (IHint_poly2 (fun x Hx => Ho x (O3 OSub a b x Hx)) _ Hb) as (y & Iy & ->).
    destruct (IHint_poly1 (fun x Hx => Ho x (O2 OSub a b x Hx)) _ Hb0) as (w & Iw & ->).
    cbn -[sn_sub e_of_i64] in E. unfold sub_eval_rule in E. cbn -[sn_sub] in E. rewrite sn_sub_rel in E by assumption. injection E as <-.
    exists (wrap_i64 (w - y)). split; [apply wrap_in_i64|reflexivity].
  - unfold e_mul in *. rewrite agg_mk2 in E by reflexivity. do 2 inv_bind E.
    destruct (IHint_poly2 (fun x Hx => Ho x (O3 OMul a b x Hx)) _ Hb) as (y & Iy & ->).
    destruct (IHint_poly1 (fun x Hx => Ho x (O2 OMul a b x Hx)) _ Hb0) as (w & Iw & ->).
    cbn -[sn_mul e_of_i64] in E. unfold mul_eval_rule in E. cbn -[sn_mul] in E. rewrite sn_mul_rel in E by assumption. injection E as <-.
    exists (wrap_i64 (w * y)). split; [apply wrap_in_i64|reflexivity].
Qed.
