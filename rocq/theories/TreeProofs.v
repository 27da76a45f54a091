(** * TreeProofs: structure of the tree transformations (no real numbers here) *)
From Coq Require Import ZArith List String Bool Lia.
From Verif Require Import Base Float Rational SmartNum Ast Compute Spec.
From Verif Require Import BaseProofs RationalProofs NumProofs NumProofs2.
Import ListNotations.
Open Scope Z_scope.
Open Scope res_scope.

(** ** induction principles *)
Fixpoint expr_ind' (P : expr -> Prop)
  (H : forall r c, Forall P c -> P (Expr r c)) (e : expr) : P e :=
  match e with
  | Expr r c =>
      H r c ((fix go (l : list expr) : Forall P l :=
                match l with
                | [] => Forall_nil P
                | x :: l' => Forall_cons x (expr_ind' P H x) (go l')
                end) c)
  end.

Lemma wf_ind1 (P : expr -> Prop) :
  (forall n, num_ok n -> P (Expr (Operand (Num n)) [])) ->
  (forall x, P (Expr (Operand (Var x)) [])) ->
  (forall t a, arity t = 1%nat -> wf a -> P a -> P (mk1 t a)) ->
  (forall t a b, arity t = 2%nat -> wf a -> wf b -> P a -> P b -> P (mk2 t a b)) ->
  forall e, wf e -> P e.
Proof.
  intros Hn Hv H1 H2 e. induction e as [r c IH] using expr_ind'. intros W.
  inversion W as [n Hok|x|t c' Hlen Hc]; subst; [apply Hn; assumption|apply Hv|].
  destruct (arity t) as [|[|[|k]]] eqn:At; try (destruct t; discriminate).
  - destruct c as [|a [|? ?]]; try discriminate.
    inversion Hc; subst. inversion IH; subst. apply H1; auto.
  - destruct c as [|a [|b [|? ?]]]; try discriminate.
    inversion Hc as [|? ? Wa Hc']; subst. inversion Hc'; subst.
    inversion IH as [|? ? Pa IH']; subst. inversion IH'; subst. apply H2; auto.
Qed.

Lemma wf_mk1 t a : arity t = 1%nat -> wf a -> wf (mk1 t a).
Proof. intros H W. apply wf_op; [symmetry; exact H|]. repeat constructor; assumption. Qed.
Lemma wf_mk2 t a b : arity t = 2%nat -> wf a -> wf b -> wf (mk2 t a b).
Proof. intros H Wa Wb. apply wf_op; [symmetry; exact H|]. repeat constructor; assumption. Qed.

Lemma gen_op_inj t t' : gen_op t = gen_op t' -> t = t'.
Proof. intros H. apply (f_equal descriptor) in H. destruct t, t'; simpl in H; congruence. Qed.
Lemma descriptor_gen t : descriptor (gen_op t) = t.
Proof. destruct t; reflexivity. Qed.

Lemma wf_mk1_inv t a : wf (mk1 t a) -> arity t = 1%nat /\ wf a.
Proof.
  intros W. inversion W as [| |t' c Hl Hc E]. apply gen_op_inj in E. subst.
  inversion Hc; subst. split; [symmetry; assumption|assumption].
Qed.
Lemma wf_mk2_inv t a b : wf (mk2 t a b) -> arity t = 2%nat /\ wf a /\ wf b.
Proof.
  intros W. inversion W as [| |t' c Hl Hc E]. apply gen_op_inj in E. subst.
  inversion Hc as [|? ? Wa Hc']; subst. inversion Hc'; subst.
  split; [symmetry; assumption|]. split; assumption.
Qed.

(** shape of a well-formed operator node *)
Lemma wf_op_inv op c : wf (Expr (Operator op) c) ->
  op = gen_op (descriptor op) /\
  ((arity (descriptor op) = 1%nat /\ exists a, c = [a] /\ wf a) \/
   (arity (descriptor op) = 2%nat /\ exists a b, c = [a; b] /\ wf a /\ wf b)).
Proof.
  intros W. inversion W as [| |t' c' Hl Hc E]; subst. rewrite descriptor_gen.
  split; [reflexivity|].
  destruct (arity t') as [|[|[|k]]] eqn:At; try (destruct t'; discriminate).
  - left. split; [reflexivity|]. destruct c as [|a [|? ?]]; try discriminate.
    inversion Hc; subst. eauto.
  - right. split; [reflexivity|]. destruct c as [|a [|b [|? ?]]]; try discriminate.
    inversion Hc as [|? ? Wa Hc']; subst. inversion Hc'; subst. eauto 6.
Qed.

Lemma wf_operand_inv o c : wf (Expr (Operand o) c) ->
  c = [] /\ match o with Num n => num_ok n | Var _ => True end.
Proof. intros W. inversion W; subst; auto. Qed.

(** ** equations of num_aggregate on well-formed nodes *)
Lemma agg_mk1 m t a : arity t = 1%nat ->
  num_aggregate m (mk1 t a) = let* a' := num_aggregate m a in eval_rule m t [Ok a'].
Proof.
  intros H. unfold mk1. cbn [num_aggregate]. rewrite descriptor_gen. cbn [map].
  destruct t; try discriminate; destruct (num_aggregate m a); reflexivity.
Qed.
Lemma agg_mk2 m t a b : arity t = 2%nat ->
  num_aggregate m (mk2 t a b) =
    let* r := num_aggregate m b in let* l := num_aggregate m a in eval_rule m t [Ok l; Ok r].
Proof.
  intros H. unfold mk2. cbn [num_aggregate]. rewrite descriptor_gen. cbn [map].
  destruct t; try discriminate; destruct (num_aggregate m b); try reflexivity;
    destruct (num_aggregate m a); reflexivity.
Qed.

(** general inversion (any tree) *)
Lemma pop_map {A B} (f : A -> B) c y rest : pop (map f c) = Some (y, rest) ->
  exists pre a, c = pre ++ [a] /\ y = f a /\ rest = map f pre.
Proof.
  intros H. apply pop_Some in H. apply map_eq_app in H as (pre & tl & -> & H1 & H2).
  destruct tl as [|a [|? ?]]; try discriminate. injection H2 as <-. eauto.
Qed.

Lemma pop_unwrap_map {A B} (f : A -> B) c y rest : pop_unwrap (map f c) = Ok (y, rest) ->
  exists pre a, c = pre ++ [a] /\ y = f a /\ rest = map f pre.
Proof.
  unfold pop_unwrap. destruct (pop (map f c)) as [p|] eqn:E; [|discriminate].
  intros [= ->]. apply pop_map. exact E.
Qed.

Lemma unwrap_inv (f : expr -> res expr) c (k : expr -> res expr) z :
  bind (pop_unwrap (map f c)) (fun p => let (r0, _) := p in bind r0 k) = Ok z ->
  exists pre a a', c = pre ++ [a] /\ f a = Ok a' /\ k a' = Ok z.
Proof.
  intros H. apply bind_ok in H as ([r0 rest] & H1 & H2). cbn beta iota in H2.
  apply pop_unwrap_map in H1 as (pre & a & -> & -> & _).
  apply bind_ok in H2 as (a' & H3 & H4). eauto 6.
Qed.

Lemma eval2_inv (f : expr -> res expr) c l r : eval2 (map f c) = Ok (l, r) ->
  exists pre a b, c = pre ++ [a; b] /\ f a = Ok l /\ f b = Ok r.
Proof.
  unfold eval2. intros H. apply bind_ok in H as ([r0 rest] & H1 & H2). cbn beta iota in H2.
  apply pop_unwrap_map in H1 as (pre & b & -> & -> & ->).
  apply bind_ok in H2 as (r' & H3 & H4). apply bind_ok in H4 as ([l0 rest'] & H5 & H6).
  cbn beta iota in H6. apply pop_unwrap_map in H5 as (pre' & a & -> & -> & _).
  apply bind_ok in H6 as (l' & H7 & H8). injection H8 as <- <-.
  exists pre', a, b. rewrite <- app_assoc. auto.
Qed.

Lemma agg_inv1 m op c z : arity (descriptor op) = 1%nat ->
  num_aggregate m (Expr (Operator op) c) = Ok z ->
  exists pre a a', c = pre ++ [a] /\ num_aggregate m a = Ok a' /\
    eval_rule m (descriptor op) [Ok a'] = Ok z.
Proof.
  intros Ha H. cbn [num_aggregate] in H. destruct (descriptor op); try discriminate;
    cbn [eval_rule] in *.
  all: match type of H with ?f _ = _ => idtac | ?f _ _ = _ => idtac end.
  all: unfold neg_eval_rule, sin_eval_rule, cos_eval_rule, exp_eval_rule, ln_eval_rule in *.
  all: apply unwrap_inv in H as (pre & a & a' & E1 & E2 & E3); exists pre, a, a'; auto.
Qed.

Lemma agg_inv2 m op c z : arity (descriptor op) = 2%nat ->
  num_aggregate m (Expr (Operator op) c) = Ok z ->
  exists pre a b l r, c = pre ++ [a; b] /\ num_aggregate m a = Ok l /\ num_aggregate m b = Ok r /\
    eval_rule m (descriptor op) [Ok l; Ok r] = Ok z.
Proof.
  intros Ha H. cbn [num_aggregate] in H. destruct (descriptor op); try discriminate;
    cbn [eval_rule] in *;
    unfold add_eval_rule, sub_eval_rule, mul_eval_rule, div_eval_rule, pow_eval_rule in *;
    apply bind_ok in H as ([l r] & H1 & H2);
    apply eval2_inv in H1 as (pre & a & b & E1 & E2 & E3);
    exists pre, a, b, l, r; auto.
Qed.

(** ** the outcomes of the rules, as a relation *)
Definition root_is (t : optype) (e : expr) : bool :=
  match root e with
  | Operator op => match descriptor op, t with
                   | ONeg, ONeg | OAdd, OAdd | OSub, OSub | OMul, OMul | ODiv, ODiv
                   | OSin, OSin | OCos, OCos | OExp, OExp | OLn, OLn | OPow, OPow => true
                   | _, _ => false
                   end
  | Operand _ => false
  end.

Definition sn_op (m : mode) (t : optype) (x y : snum) : res snum :=
  match t with
  | OAdd => sn_add m x y
  | OSub => sn_sub m x y
  | OMul => sn_mul m x y
  | _ => sn_div m x y
  end.

Inductive ar1 (m : mode) : optype -> expr -> expr -> Prop :=
| ar_neg_num k n v : sn_neg m n = Ok v -> ar1 m ONeg (Expr (Operand (Num n)) k) (e_num v)
| ar_neg_neg op r c : descriptor op = ONeg -> ar1 m ONeg (Expr (Operator op) (r ++ [c])) c
| ar_neg a : is_num a = false -> root_is ONeg a = false -> ar1 m ONeg a (e_neg a)
| ar_sin_c a : is_zero a || is_pi a = true -> ar1 m OSin a e_zero
| ar_sin a : is_zero a || is_pi a = false -> ar1 m OSin a (e_sin a)
| ar_cos_c a : is_zero a || is_pi a = true -> ar1 m OCos a e_one
| ar_cos a : is_zero a || is_pi a = false -> ar1 m OCos a (e_cos a)
| ar_exp_0 a : is_zero a = true -> ar1 m OExp a e_one
| ar_exp_1 a : is_zero a = false -> is_one a = true -> ar1 m OExp a e_e
| ar_exp_ln op r c : descriptor op = OLn -> ar1 m OExp (Expr (Operator op) (r ++ [c])) c
| ar_exp a : is_zero a = false -> is_one a = false -> root_is OLn a = false -> ar1 m OExp a (e_exp a)
| ar_ln_e a : is_e a = true -> ar1 m OLn a e_one
| ar_ln_1 a : is_e a = false -> is_one a = true -> ar1 m OLn a e_zero
| ar_ln_exp op r c : descriptor op = OExp -> ar1 m OLn (Expr (Operator op) (r ++ [c])) c
| ar_ln a : is_e a = false -> is_one a = false -> root_is OExp a = false -> ar1 m OLn a (e_ln a).

Inductive ar2 (m : mode) : optype -> expr -> expr -> expr -> Prop :=
| ar_num t k1 k2 x y v : t = OAdd \/ t = OSub \/ t = OMul \/ t = ODiv ->
    sn_op m t x y = Ok v ->
    ar2 m t (Expr (Operand (Num x)) k1) (Expr (Operand (Num y)) k2) (e_num v)
| ar_add_0l l r : is_num l && is_num r = false -> is_zero l = true -> ar2 m OAdd l r r
| ar_add_0r l r : is_num l && is_num r = false -> is_zero l = false -> is_zero r = true ->
    ar2 m OAdd l r l
| ar_add l r : is_num l && is_num r = false -> is_zero l = false -> is_zero r = false ->
    ar2 m OAdd l r (e_add l r)
| ar_sub_0l l r : is_num l && is_num r = false -> is_zero l = true -> ar2 m OSub l r (e_neg r)
| ar_sub_0r l r : is_num l && is_num r = false -> is_zero l = false -> is_zero r = true ->
    ar2 m OSub l r l
| ar_sub l r : is_num l && is_num r = false -> is_zero l = false -> is_zero r = false ->
    ar2 m OSub l r (e_sub l r)
| ar_mul_0 l r : is_num l && is_num r = false -> is_zero l || is_zero r = true ->
    ar2 m OMul l r e_zero
| ar_mul_1l l r : is_num l && is_num r = false -> is_zero l || is_zero r = false ->
    is_one l = true -> ar2 m OMul l r r
| ar_mul_1r l r : is_num l && is_num r = false -> is_zero l || is_zero r = false ->
    is_one l = false -> is_one r = true -> ar2 m OMul l r l
| ar_mul l r : is_num l && is_num r = false -> is_zero l || is_zero r = false ->
    is_one l = false -> is_one r = false -> ar2 m OMul l r (e_mul l r)
| ar_div_0 l r : is_num l && is_num r = false -> is_zero l = true -> ar2 m ODiv l r e_zero
| ar_div l r : is_num l && is_num r = false -> is_zero l = false -> ar2 m ODiv l r (e_div l r)
| ar_pow_0 l r : is_zero l = true -> ar2 m OPow l r e_one
| ar_pow_1 l r : is_zero l = false -> is_one l = true -> ar2 m OPow l r r
| ar_pow_ln op k c r : descriptor op = OLn -> ar2 m OPow (Expr (Operator op) (k ++ [c])) r c
| ar_pow l r : is_zero l = false -> is_one l = false -> root_is OLn l = false ->
    ar2 m OPow l r (e_pow l r).

Lemma is_num_inv e : is_num e = true -> exists n k, e = Expr (Operand (Num n)) k.
Proof. destruct e as [[op|[n|x]] k]; try discriminate. eauto. Qed.

Lemma pop_unwrap_inv {A} (l : list A) c rest : pop_unwrap l = Ok (c, rest) -> l = rest ++ [c].
Proof.
  unfold pop_unwrap. destruct (pop l) as [p|] eqn:E; [|discriminate].
  intros [= ->]. apply pop_Some. exact E.
Qed.

Lemma rule1_ar m t a z : arity t = 1%nat -> eval_rule m t [Ok a] = Ok z -> ar1 m t a z.
Proof.
  intros Ht H. destruct t; try discriminate; cbn [eval_rule] in H.
  - unfold neg_eval_rule in H. cbn -[sn_neg e_neg e_num is_num] in H.
    destruct (is_num a) eqn:N.
    + apply is_num_inv in N as (n & k & ->). cbn -[sn_neg] in H. inv_bind H. injection H as <-.
      constructor. assumption.
    + destruct a as [[op|o] k]; cbn [root child] in H.
      * destruct (descriptor op) eqn:D.
        1: { inv_bind H. destruct a as [c rest]. injection H as <-.
             apply pop_unwrap_inv in Hb. subst. constructor. assumption. }
        all: injection H as <-; apply ar_neg; [assumption|]; unfold root_is; cbn [root]; rewrite D; reflexivity.
      * injection H as <-. apply ar_neg; [assumption|reflexivity].
  - unfold sin_eval_rule in H. cbn -[e_sin] in H. destruct a as [[op|o] k]; cbn [root child] in H.
    + injection H as <-. apply ar_sin. reflexivity.
    + destruct (od_is_zero o || od_is_pi o) eqn:E; injection H as <-;
        [apply ar_sin_c | apply ar_sin]; exact E.
  - unfold cos_eval_rule in H. cbn -[e_cos] in H. destruct a as [[op|o] k]; cbn [root child] in H.
    + injection H as <-. apply ar_cos. reflexivity.
    + destruct (od_is_zero o || od_is_pi o) eqn:E; injection H as <-;
        [apply ar_cos_c | apply ar_cos]; exact E.
  - unfold exp_eval_rule in H. cbn -[e_exp] in H. destruct a as [[op|[n|x]] k]; cbn [root child] in H.
    + destruct (descriptor op) eqn:D.
      9: { inv_bind H. destruct a as [c rest]. injection H as <-.
           apply pop_unwrap_inv in Hb. subst. apply ar_exp_ln. assumption. }
      all: injection H as <-; apply ar_exp; try reflexivity; unfold root_is; cbn [root]; rewrite D; reflexivity.
    + destruct (sn_is_zero n) eqn:E0; [|destruct (sn_is_one n) eqn:E1]; injection H as <-.
      * apply ar_exp_0. exact E0.
      * apply ar_exp_1; assumption.
      * apply ar_exp; try assumption. reflexivity.
    + injection H as <-. apply ar_exp; reflexivity.
  - unfold ln_eval_rule in H. cbn -[e_ln] in H. destruct a as [[op|[n|x]] k]; cbn [root child] in H.
    + destruct (descriptor op) eqn:D.
      8: { inv_bind H. destruct a as [c rest]. injection H as <-.
           apply pop_unwrap_inv in Hb. subst. apply ar_ln_exp. assumption. }
      all: injection H as <-; apply ar_ln; try reflexivity; unfold root_is; cbn [root]; rewrite D; reflexivity.
    + destruct (sn_is_e n) eqn:E0; [|destruct (sn_is_one n) eqn:E1]; injection H as <-.
      * apply ar_ln_e. exact E0.
      * apply ar_ln_1; assumption.
      * apply ar_ln; try assumption. reflexivity.
    + injection H as <-. apply ar_ln; reflexivity.
Qed.

Lemma rule2_ar m t l r z : arity t = 2%nat -> eval_rule m t [Ok l; Ok r] = Ok z -> ar2 m t l r z.
Proof.
  intros Ht H. destruct t; try discriminate; cbn [eval_rule] in H.
  - unfold add_eval_rule in H.
    cbn -[sn_add e_add e_num is_num is_zero to_smart_num_unwrap] in H.
    destruct (is_num l && is_num r) eqn:N.
    + apply andb_true_iff in N as [N1 N2].
      apply is_num_inv in N1 as (x & k1 & ->), N2 as (y & k2 & ->).
      cbn -[sn_add] in H. inv_bind H. injection H as <-. apply ar_num; [tauto|assumption].
    + destruct (is_zero l) eqn:Z1; [|destruct (is_zero r) eqn:Z2]; injection H as <-;
        constructor; assumption.
  - unfold sub_eval_rule in H.
    cbn -[sn_sub e_sub e_neg e_num is_num is_zero to_smart_num_unwrap] in H.
    destruct (is_num l && is_num r) eqn:N.
    + apply andb_true_iff in N as [N1 N2].
      apply is_num_inv in N1 as (x & k1 & ->), N2 as (y & k2 & ->).
      cbn -[sn_sub] in H. inv_bind H. injection H as <-. apply ar_num; [tauto|assumption].
    + destruct (is_zero l) eqn:Z1; [|destruct (is_zero r) eqn:Z2]; injection H as <-;
        constructor; assumption.
  - unfold mul_eval_rule in H.
    cbn -[sn_mul e_mul e_num is_num is_zero is_one to_smart_num_unwrap] in H.
    destruct (is_num l && is_num r) eqn:N.
    + apply andb_true_iff in N as [N1 N2].
      apply is_num_inv in N1 as (x & k1 & ->), N2 as (y & k2 & ->).
      cbn -[sn_mul] in H. inv_bind H. injection H as <-. apply ar_num; [tauto|assumption].
    + destruct (is_zero l || is_zero r) eqn:Z1; [|destruct (is_one l) eqn:Z2; [|destruct (is_one r) eqn:Z3]];
        injection H as <-; constructor; assumption.
  - unfold div_eval_rule in H.
    cbn -[sn_div e_div e_num is_num is_zero to_smart_num_unwrap] in H.
    destruct (is_num l && is_num r) eqn:N.
    + apply andb_true_iff in N as [N1 N2].
      apply is_num_inv in N1 as (x & k1 & ->), N2 as (y & k2 & ->).
      cbn -[sn_div] in H. inv_bind H. injection H as <-. apply ar_num; [tauto|assumption].
    + destruct (is_zero l) eqn:Z1; injection H as <-; constructor; assumption.
  - unfold pow_eval_rule in H. cbn -[e_pow] in H.
    destruct l as [[op|[n|x]] k]; cbn [root child] in H.
    + destruct (descriptor op) eqn:D.
      9: { inv_bind H. destruct a as [c rest]. injection H as <-.
           apply pop_unwrap_inv in Hb. subst. apply ar_pow_ln. assumption. }
      all: injection H as <-; apply ar_pow; try reflexivity; unfold root_is; cbn [root]; rewrite D; reflexivity.
    + destruct (sn_is_zero n) eqn:E0; [|destruct (sn_is_one n) eqn:E1]; injection H as <-.
      * apply ar_pow_0. exact E0.
      * apply ar_pow_1; assumption.
      * apply ar_pow; try assumption. reflexivity.
    + injection H as <-. apply ar_pow; reflexivity.
Qed.

Lemma agg_wf_inv m e z : wf e -> num_aggregate m e = Ok z ->
  (is_operand e = true /\ z = e) \/
  (exists t a a', arity t = 1%nat /\ e = mk1 t a /\ wf a /\ num_aggregate m a = Ok a' /\ ar1 m t a' z) \/
  (exists t a b l r, arity t = 2%nat /\ e = mk2 t a b /\ wf a /\ wf b /\
     num_aggregate m a = Ok l /\ num_aggregate m b = Ok r /\ ar2 m t l r z).
Proof.
  intros W H. destruct e as [[op|o] c].
  - right. destruct (wf_op_inv _ _ W) as (Hop & [(Ha & a & -> & Wa)|(Ha & a & b & -> & Wa & Wb)]).
    + left. apply agg_inv1 in H as (pre & a0 & a' & E & H1 & H2); [|assumption].
      apply (app_inj_tail [] pre) in E as [<- <-].
      exists (descriptor op), a, a'. repeat split; try assumption.
      * unfold mk1. rewrite <- Hop. reflexivity.
      * apply rule1_ar; assumption.
    + right. apply agg_inv2 in H as (pre & a0 & b0 & l & r & E & H1 & H2 & H3); [|assumption].
      assert (pre = [] /\ a = a0 /\ b = b0) as (-> & <- & <-).
      { destruct pre as [|p [|q pre]]; simpl in E; [injection E as <- <-; auto|..];
          injection E; intros; subst; try discriminate.
        destruct pre; discriminate. }
      exists (descriptor op), a, b, l, r. repeat split; try assumption.
      * unfold mk2. rewrite <- Hop. reflexivity.
      * apply rule2_ar; assumption.
  - left. cbn [num_aggregate] in H. injection H as <-. auto.
Qed.
