(** * DispEval: equal text of readable, float-free expressions means equal value *)
From Coq Require Import ZArith QArith List String Ascii Bool Lia.
From Coq Require Import Reals Qreals.
From Verif Require Import Base Float Rational SmartNum Ast Compute Limit Display Spec SpecTree SpecR SpecDisp.
From Verif Require Import BaseProofs RationalProofs NumProofs NumProofs2 TreeProofs DispProofs DispParse.
Import ListNotations.
Open Scope string_scope.

Lemma undefined_denotes_nothing a q : (0 <= a)%Z -> ~ denotes (string_of_Z a ++ String "/" "0") q.
Proof.
  intros Ha H. pose proof (numeral_nonneg a Ha) as N.
  inversion H as [s' z' Hs' E|s' t' n' d' Hs' Ht' E|s' t' i' f' Hs' Ht' E|s' q0 H0 E].
  - apply numeral_all in Hs'. rewrite not_all_digits_app in Hs' by reflexivity. discriminate.
  - simpl append in E. apply split_unique in E as (E1 & _ & E3); eauto using numeral_all. subst t'.
    destruct Ht' as [_ Ht']. discriminate Ht'.
  - simpl append in E. apply split_unique in E as (E1 & E2 & E3); eauto using numeral_all. discriminate.
  - destruct (numeral_cons _ _ N) as (c & r & Ec & C). rewrite Ec in E. simpl in E.
    injection E as <- E. now apply C.
Qed.

Lemma undefined_neg_denotes_nothing a q : (0 <= a)%Z ->
  ~ denotes (String "-" (string_of_Z a ++ String "/" "0")) q.
Proof.
  intros Ha H.
  inversion H as [s' z' Hs' E|s' t' n' d' Hs' Ht' E|s' t' i' f' Hs' Ht' E|s' q0 H0 E].
  - apply numeral_all in Hs'. discriminate Hs'.
  - destruct (numeral_cons _ _ Hs') as (c & r & -> & C). simpl in E. injection E as -> E. now apply C.
  - destruct (numeral_cons _ _ Hs') as (c & r & -> & C). simpl in E. injection E as -> E. now apply C.
  - now apply (undefined_denotes_nothing a q0 Ha).
Qed.

(** two exact numbers that print the same have the same value *)
Lemma exact_text_value n n' : num_ok n -> num_ok n' -> exact_num n -> exact_num n' ->
  sn_to_string n = sn_to_string n' -> oQeq (exact_Q n) (exact_Q n').
Proof.
  assert (U : forall n, num_ok n -> exact_num n -> exact_Q n = None ->
     exists a p, (0 <= a)%Z /\ (p = "" \/ p = "-") /\
       sn_to_string n = Ok (p ++ string_of_Z a ++ String "/" "0")).
  { clear. intros n [I T] X E. unfold exact_Q in E.
    destruct (nval n) as [z|r|f] eqn:Ev; [discriminate E| |elim (X f Ev)].
    simpl in E. destruct (rden r =? 0)%Z eqn:D; [|discriminate E]. apply Z.eqb_eq in D.
    destruct I as [[_ [I _]] _].
    exists (rnum r), (if (rsign r =? 1)%Z then "" else "-"). split; [lia|]. split.
    { destruct (rsign r =? 1)%Z; auto. }
    unfold sn_to_string. rewrite Ev.
    destruct (ntag n); cbn in T; rewrite ?D, ?andb_false_r in T; try discriminate T.
    unfold val_to_string, rat_to_string. rewrite D. reflexivity. }
  assert (V : forall n n' q, num_ok n -> num_ok n' -> exact_num n' ->
     exact_Q n = Some q -> exact_Q n' = None -> sn_to_string n = sn_to_string n' -> False).
  { intros a b q Oa Ob Xb Ea Eb S. destruct (U b Ob Xb Eb) as (z & p & Hz & Hp & E).
    rewrite E in S. destruct (sn_to_string_exact a q _ Oa Ea S) as (q' & D & _).
    destruct Hp as [-> | ->]; simpl append in D.
    - now apply undefined_denotes_nothing in D.
    - now apply undefined_neg_denotes_nothing in D. }
  intros O O' X X' S.
  destruct (exact_Q n) as [q|] eqn:E, (exact_Q n') as [q'|] eqn:E'; cbn [oQeq].
  - destruct (sn_to_string_ok n) as [s Hs].
    destruct (sn_to_string_exact n q s O E Hs) as (r & D & Eq).
    rewrite Hs in S. symmetry in S.
    destruct (sn_to_string_exact n' q' s O' E' S) as (r' & D' & Eq').
    rewrite <- Eq, <- Eq'. exact (denotes_unique _ _ D _ D').
  - exact (V n n' q O O' X' E E' S).
  - exact (V n' n q' O' O X E' E (eq_sym S)).
  - exact I.
Qed.

Lemma plain_number_value n n' : num_ok n -> num_ok n' -> plain_number n -> plain_number n' ->
  (forall f, nval n = Real f -> ntag n = TPi \/ ntag n = TE) ->
  (forall f, nval n' = Real f -> ntag n' = TPi \/ ntag n' = TE) ->
  sn_to_string n = sn_to_string n' -> num_R n = num_R n'.
Proof.
  intros O O' P P' F F' S.
  assert (G : forall n, plain_number n ->
    (ntag n = TPi /\ sn_to_string n = Ok "pi") \/ (ntag n = TE /\ sn_to_string n = Ok "e") \/
    (ntag n <> TPi /\ ntag n <> TE /\ exists c t, sn_to_string n = Ok (String c t) /\ digit_value c <> None)).
  { clear. intros n [H|[H|(c & t & H & D)]].
    - left. unfold sn_to_string. rewrite H. auto.
    - right; left. unfold sn_to_string. rewrite H. auto.
    - right; right. split; [|split; [|eauto]]; intros E; unfold sn_to_string in H; rewrite E in H;
        simpl in H; injection H as <- <-; now apply D. }
  destruct (G n P) as [[T E]|[[T E]|(T1 & T2 & c & t & E & D)]],
           (G n' P') as [[T' E']|[[T' E']|(T1' & T2' & c' & t' & E' & D')]];
    rewrite E, E' in S; try discriminate S.
  - unfold num_R. now rewrite T, T'.
  - exfalso. injection S as <- _. now apply D'.
  - unfold num_R. now rewrite T, T'.
  - exfalso. injection S as <- _. now apply D'.
  - exfalso. injection S as -> _. now apply D.
  - exfalso. injection S as -> _. now apply D.
  - assert (X : exact_num n) by (intros f Hf; destruct (F f Hf); contradiction).
    assert (X' : exact_num n') by (intros f Hf; destruct (F' f Hf); contradiction).
    assert (Q : oQeq (exact_Q n) (exact_Q n')).
    { apply exact_text_value; try assumption. now rewrite E, E', S. }
    assert (H : num_R n = option_map Q2R (exact_Q n)).
    { unfold num_R, exact_Q. destruct (ntag n); try contradiction;
        destruct (nval n) eqn:V; try reflexivity; now elim (X f). }
    assert (H' : num_R n' = option_map Q2R (exact_Q n')).
    { unfold num_R, exact_Q. destruct (ntag n'); try contradiction;
        destruct (nval n') eqn:V; try reflexivity; now elim (X' f). }
    rewrite H, H'. destruct (exact_Q n), (exact_Q n'); try (exfalso; exact Q); [|reflexivity].
    simpl. f_equal. now apply Qeq_eqR.
Qed.

Lemma readable_mk_inv1 t a : readable (mk1 t a) -> readable a.
Proof.
  intros R. inversion R as [| |t' a' Ht Ha E|t' a' b' Ht Ha Hb Hr E].
  - assumption.
Qed.
Lemma readable_mk_inv2 t a b : readable (mk2 t a b) -> readable a /\ readable b.
Proof. intros R. inversion R; subst; auto. Qed.

Lemma no_floats_un t a : no_floats (mk1 t a) -> no_floats a.
Proof.
  intros H n c f Hs Hv. apply (H n c f); [|assumption].
  apply (sub_child _ _ _ a); [left; reflexivity|assumption].
Qed.
Lemma no_floats_bin t a b : no_floats (mk2 t a b) -> no_floats a /\ no_floats b.
Proof.
  intros H. split; intros n c f Hs Hv; apply (H n c f); try assumption.
  - apply (sub_child _ _ _ a); [left; reflexivity|assumption].
  - apply (sub_child _ _ _ b); [right; left; reflexivity|assumption].
Qed.

Theorem same_text_value e1 e2 : same_text e1 e2 -> wf e1 -> wf e2 -> readable e1 -> readable e2 ->
  no_floats e1 -> no_floats e2 -> forall rho, eval rho e1 = eval rho e2.
Proof.
  induction 1 as [n n' S|x|t a a' S IH|t a a' b b' Sa IHa Sb IHb]; intros W W' R R' F F' rho.
  - cbn [e_num eval]. apply plain_number_value.
    + now inversion W.
    + now inversion W'.
    + now inversion R.
    + now inversion R'.
    + intros f. apply (F n [] f), sub_refl.
    + intros f. apply (F' n' [] f), sub_refl.
    + exact S.
  - reflexivity.
  - destruct (wf_mk1_inv _ _ W) as [_ Wa]. destruct (wf_mk1_inv _ _ W') as [_ Wa'].
    cbn [mk1 eval map]. f_equal. f_equal.
    apply IH; eauto using readable_mk_inv1, no_floats_un.
  - destruct (wf_mk2_inv _ _ _ W) as [_ [Wa Wb]]. destruct (wf_mk2_inv _ _ _ W') as [_ [Wa' Wb']].
    destruct (readable_mk_inv2 _ _ _ R). destruct (readable_mk_inv2 _ _ _ R').
    destruct (no_floats_bin _ _ _ F). destruct (no_floats_bin _ _ _ F').
    unfold mk2. cbn [eval map]. rewrite (IHa Wa Wa'), (IHb Wb Wb') by assumption. reflexivity.
Qed.
