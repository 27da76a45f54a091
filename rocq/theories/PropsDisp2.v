(** * PropsDisp2: the printed text determines the value up to regrouping (C43) *)
From Coq Require Import ZArith List String Bool Lia.
From Coq Require Import Reals Lra.
From Verif Require Import Base Float Rational SmartNum Ast Display.
From Verif Require Import Spec SpecTree SpecR SpecDisp SpecDisp2.
From Verif Require Import BaseProofs NumProofs TreeProofs TreeProofs2 RealProofs DispProofs DispParse DispEval PropsDisp.
Import ListNotations.
Open Scope string_scope.
Open Scope Z_scope.

Definition rbind (e : expr) : option Z :=
  match root e with Operator op => Some (binds (descriptor op)) | Operand _ => None end.

(** [c] is as good as [e], and readable *)
Definition like (c e : expr) : Prop :=
  readable c /\ wf c /\ (no_floats e -> no_floats c) /\ rbind c = rbind e /\
  (forall u, to_string_raw u c = to_string_raw u e) /\ (forall rho, eval rho c = eval rho e).
Lemma like_refl e : readable e -> wf e -> like e e.
Proof. intros R W. repeat split; auto. Qed.

Lemma raw2 u t a a' b b' : wf a -> wf b -> (forall v, to_string_raw v a' = to_string_raw v a) -> (forall v, to_string_raw v b' = to_string_raw v b) ->
  to_string_raw u (mk2 t a' b') = to_string_raw u (mk2 t a b).
Proof.
  intros Wa Wb Ea Eb. destruct (to_string_total a Wa (priority (gen_op t))) as [s E]. destruct (to_string_total b Wb (priority (gen_op t))) as [r F].
  rewrite (raw_mk2 u t a b s r E F). apply raw_mk2; [rewrite Ea; exact E|rewrite Eb; exact F].
Qed.
Lemma no_right t b : (forall op c, b = Expr (Operator op) c -> binds (descriptor op) <> binds t) <-> rbind b <> Some (binds t).
Proof.
  split.
  - intros H E. unfold rbind in E. destruct b as [[op|o] c]; cbn [root] in E; [|discriminate]. injection E as E. exact (H op c eq_refl E).
  - intros H op c -> E. apply H. unfold rbind. cbn [root]. rewrite E. reflexivity.
Qed.
Lemma rbind_mk2 t a b : rbind (mk2 t a b) = Some (binds t).
Proof. unfold rbind. cbn [root mk2]. rewrite descriptor_gen. reflexivity. Qed.
Lemma rbind_mk1 t a : rbind (mk1 t a) = Some (binds t).
Proof. unfold rbind. cbn [root mk1]. rewrite descriptor_gen. reflexivity. Qed.

(** moving the right operand's own operator out: a t (b1 t' b2) and (a t b1) t' b2 print the
    same if t and t' bind alike *)
Lemma raw_rotate u t t' a b1 b2 : wf a -> wf b1 -> wf b2 -> priority (gen_op t') = priority (gen_op t) ->
  to_string_raw u (mk2 t' (mk2 t a b1) b2) = to_string_raw u (mk2 t a (mk2 t' b1 b2)).
Proof.
  intros Wa W1 W2 P.
  destruct (to_string_total a Wa (priority (gen_op t))) as [s E]. destruct (to_string_total b1 W1 (priority (gen_op t))) as [r F].
  destruct (to_string_total b2 W2 (priority (gen_op t))) as [q G].
  pose proof (raw_mk2 (priority (gen_op t)) t a b1 s r E F) as H1.
  assert (to_string_raw (priority (gen_op t')) b1 = Ok r) as F' by (rewrite P; exact F).
  assert (to_string_raw (priority (gen_op t')) b2 = Ok q) as G' by (rewrite P; exact G).
  pose proof (raw_mk2 (priority (gen_op t)) t' b1 b2 r q F' G') as H2.
  rewrite P in H2. rewrite Z.ltb_irrefl in H1, H2. cbn [parens] in H1, H2.
  rewrite (raw_mk2 u t a _ _ _ E H2). assert (to_string_raw (priority (gen_op t')) (mk2 t a b1) = Ok (s ++ " " ++ symbol (gen_op t) ++ " " ++ r)%string) as H1'
    by (rewrite P; exact H1).
  rewrite (raw_mk2 u t' _ _ _ _ H1' G'). rewrite P. f_equal. f_equal.
  rewrite !app_assoc_s. reflexivity.
Qed.

Lemma eval_rotate_add rho a b1 b2 : eval rho (mk2 OAdd (mk2 OAdd a b1) b2) = eval rho (mk2 OAdd a (mk2 OAdd b1 b2)).
Proof.
  rewrite !eval_mk2. destruct (eval rho a), (eval rho b1), (eval rho b2); cbn [obind ev2]; try reflexivity. f_equal. ring.
Qed.
Lemma eval_rotate_sub rho a b1 b2 : eval rho (mk2 OSub (mk2 OAdd a b1) b2) = eval rho (mk2 OAdd a (mk2 OSub b1 b2)).
Proof.
  rewrite !eval_mk2. destruct (eval rho a), (eval rho b1), (eval rho b2); cbn [obind ev2]; try reflexivity. f_equal. ring.
Qed.
Lemma eval_rotate_mul rho a b1 b2 : eval rho (mk2 OMul (mk2 OMul a b1) b2) = eval rho (mk2 OMul a (mk2 OMul b1 b2)).
Proof.
  rewrite !eval_mk2. destruct (eval rho a), (eval rho b1), (eval rho b2); cbn [obind ev2]; try reflexivity. f_equal. ring.
Qed.

Lemma join_base t a b : arity t = 2%nat -> readable a -> wf a -> readable b -> wf b -> rbind b <> Some (binds t) -> like (mk2 t a b) (mk2 t a b).
Proof.
  intros A Ra Wa Rb Wb N. apply like_refl; [apply Rd_bin; try assumption; apply no_right; exact N|apply wf_mk2; assumption].
Qed.

(** one rotation step on top of a result for the inner pair *)
Lemma join_step t t' a b1 b2 c1 : arity t = 2%nat -> arity t' = 2%nat -> binds t' = binds t -> priority (gen_op t') = priority (gen_op t) ->
  wf a -> wf b1 -> wf b2 -> readable b2 -> rbind b2 <> Some (binds t') ->
  (forall rho, eval rho (mk2 t' (mk2 t a b1) b2) = eval rho (mk2 t a (mk2 t' b1 b2))) ->
  like c1 (mk2 t a b1) -> like (mk2 t' c1 b2) (mk2 t a (mk2 t' b1 b2)).
Proof.
  intros A A' Bi P Wa W1 W2 R2 N Ev (Rc & Wc & Fc & _ & Tc & Ec). split; [apply Rd_bin; try assumption; apply no_right; exact N|].
  split; [apply wf_mk2; assumption|]. split.
  { intros F. destruct (no_floats_bin _ _ _ F) as [Fa Fb]. destruct (no_floats_bin _ _ _ Fb) as [F1 F2].
    apply nf_bin; [apply Fc, nf_bin; assumption|assumption]. }
  split; [rewrite !rbind_mk2, Bi; reflexivity|]. split.
  - intros u. rewrite <- (raw_rotate u t t' a b1 b2 Wa W1 W2 P). apply raw2; [apply wf_mk2; assumption|assumption|exact Tc|reflexivity].
  - intros rho. rewrite <- Ev, !eval_mk2, Ec, !eval_mk2. reflexivity.
Qed.

Lemma join t a : arity t = 2%nat -> readable a -> wf a -> forall b, readable b -> wf b ->
  (rbind b = Some (binds t) -> t = OAdd \/ t = OMul) -> exists c, like c (mk2 t a b).
Proof.
  intros A Ra Wa b Rb. induction Rb as [n Pn|x Px|t' b1 A' R1 IH|t' b1 b2 A' R1 IH1 R2 _ N]; intros Wb H.
  - eexists. apply join_base; try assumption; [apply Rd_num; exact Pn|discriminate].
  - eexists. apply join_base; try assumption; [apply Rd_var; exact Px|discriminate].
  - eexists. apply join_base; try assumption; [apply Rd_un; assumption|]. rewrite rbind_mk1. intros [=E]. destruct t, t'; discriminate.
  - destruct (wf_mk2_inv _ _ _ Wb) as (_ & W1 & W2). pose proof (proj1 (no_right t' b2) N) as N'.
    destruct (Z.eq_dec (binds t') (binds t)) as [E|E].
    2:{ eexists. apply join_base; try assumption; [apply Rd_bin; assumption|]. rewrite rbind_mk2. intros [=K]. contradiction. }
    assert (t = OAdd \/ t = OMul) as Ht by (apply H; rewrite rbind_mk2, E; reflexivity).
    destruct (IH1 W1 (fun _ => Ht)) as [c1 L].
    exists (mk2 t' c1 b2). destruct Ht as [-> | ->]; destruct t'; try discriminate A'; try discriminate E.
    + apply join_step; try assumption; try reflexivity. intros rho. apply eval_rotate_add.
    + apply join_step; try assumption; try reflexivity. intros rho. apply eval_rotate_sub.
    + apply join_step; try assumption; try reflexivity. intros rho. apply eval_rotate_mul.
Qed.

Lemma regroup e : regroupable e -> wf e -> exists c, like c e.
Proof.
  induction 1 as [n Pn|x Px|t a A R IH|t a b A Ra IHa Rb IHb N]; intros W.
  - eexists. apply like_refl; [apply Rd_num; exact Pn|exact W].
  - eexists. apply like_refl; [apply Rd_var; exact Px|exact W].
  - destruct (wf_mk1_inv _ _ W) as [_ Wa]. destruct (IH Wa) as (c & Rc & Wc & Fc & Bc & Tc & Ec). exists (mk1 t c).
    split; [apply Rd_un; assumption|]. split; [apply wf_mk1; assumption|]. split; [intros F; apply nf_un, Fc; exact (no_floats_un _ _ F)|].
    split; [rewrite !rbind_mk1; reflexivity|]. split.
    + intros u. destruct (to_string_total a Wa (priority (gen_op t))) as [s E]. rewrite (raw_mk1 u t a s E). apply raw_mk1. rewrite Tc. exact E.
    + intros rho. rewrite !eval_mk1, Ec. reflexivity.
  - destruct (wf_mk2_inv _ _ _ W) as (_ & Wa & Wb).
    destruct (IHa Wa) as (a' & Ra' & Wa' & Fa & Ba & Ta & Ea). destruct (IHb Wb) as (b' & Rb' & Wb' & Fb & Bb & Tb & Eb).
    assert (rbind b' = Some (binds t) -> t = OAdd \/ t = OMul) as K.
    { rewrite Bb. intros E. unfold rbind in E. destruct b as [[op|o] k]; cbn [root] in E; [|discriminate]. injection E as E. exact (N op k eq_refl E). }
    destruct (join t a' A Ra' Wa' b' Rb' Wb' K) as (c & Rc & Wc & Fc & Bc & Tc & Ec). exists c.
    split; [exact Rc|]. split; [exact Wc|]. split.
    { intros F. destruct (no_floats_bin _ _ _ F) as [F1 F2]. apply Fc, nf_bin; [apply Fa|apply Fb]; assumption. }
    split; [rewrite Bc, !rbind_mk2; reflexivity|]. split.
    + intros u. rewrite Tc. apply raw2; assumption.
    + intros rho. rewrite Ec, !eval_mk2, Ea, Eb. reflexivity.
Qed.

(** expressions that print the same have the same value, also where sums and products are
    grouped to the right *)
Theorem c43_regroupable_value e1 e2 : wf e1 -> wf e2 -> regroupable e1 -> regroupable e2 ->
  no_floats e1 -> no_floats e2 -> e_to_string e1 = e_to_string e2 ->
  forall rho, eval rho e1 = eval rho e2.
Proof.
  intros W1 W2 R1 R2 F1 F2 H rho.
  destruct (regroup e1 R1 W1) as (c1 & Rc1 & Wc1 & Fc1 & _ & Tc1 & Ec1).
  destruct (regroup e2 R2 W2) as (c2 & Rc2 & Wc2 & Fc2 & _ & Tc2 & Ec2).
  rewrite <- Ec1, <- Ec2. apply c43_readable_value; auto. unfold e_to_string in *. rewrite Tc1, Tc2. exact H.
Qed.
Print Assumptions c43_regroupable_value.

(** x + (y - 1) and (x + y) - 1: different trees, one text *)
Example c43_regroupable_witness :
  let e1 := e_add (e_var "x") (e_sub (e_var "y") e_one) in
  let e2 := e_sub (e_add (e_var "x") (e_var "y")) e_one in
  regroupable e1 /\ regroupable e2 /\ ~ readable e1 /\ e1 <> e2 /\ no_floats e1 /\ no_floats e2 /\
  e_to_string e1 = Ok "x + y - 1" /\ e_to_string e2 = Ok "x + y - 1".
Proof.
  intros e1 e2.
  assert (plain_number sn_one) as P1 by (right; right; eexists _, _; split; [reflexivity|discriminate]).
  assert (no_floats e_one) as N1 by (apply nf_num; intros f [=]).
  split; [|split; [|split; [|split; [discriminate|split; [|split; [|split; reflexivity]]]]]].
  - apply Rg_bin; [reflexivity|apply Rg_var, plain_name_x| |auto].
    apply Rg_bin; [reflexivity|apply Rg_var, plain_name_y|apply Rg_num; exact P1|intros op c [=]].
  - apply Rg_bin; [reflexivity| |apply Rg_num; exact P1|intros op c [=]].
    apply Rg_bin; [reflexivity|apply Rg_var, plain_name_x|apply Rg_var, plain_name_y|intros op c [=]].
  - intros R. inversion R as [| |? ? ? ? E|t a b A Ra Rb N E]; subst. 
    apply (gen_op_inj t OAdd) in E. rewrite E in N. exact (N _ _ eq_refl eq_refl).
  - apply nf_bin; [apply nf_var|apply nf_bin; [apply nf_var|exact N1]].
  - apply nf_bin; [apply nf_bin; apply nf_var|exact N1].
Qed.
