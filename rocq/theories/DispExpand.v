(** * DispExpand: printing Taylor expansions *)
From Coq Require Import ZArith QArith List String Ascii Bool Lia.
From Verif Require Import Base Float Rational SmartNum Ast Compute Limit Display Spec SpecTree SpecDisp.
From Verif Require Import BaseProofs RationalProofs NumProofs NumProofs2 TreeProofs TreeProofs2 TreeProofs5 DispProofs.
Import ListNotations.
Open Scope string_scope.

Lemma binds_priority t : priority (gen_op t) = binds t.
Proof. destruct t; reflexivity. Qed.
Lemma op_sign_symbol t : symbol (gen_op t) = op_sign t.
Proof. destruct t; reflexivity. Qed.

Lemma raw_shown t a s : wf a -> e_to_string a = Ok s ->
  to_string_raw (priority (gen_op t)) a = Ok (shown t a s).
Proof.
  intros W H. rewrite (raw_context _ _ _ W H). unfold shown, parens.
  rewrite binds_priority. inversion W as [| |t' c L F]; subst; [reflexivity|reflexivity|].
  cbn [root]. rewrite binds_priority. destruct t'; reflexivity.
Qed.

Lemma text_mk1 t a s : wf a -> e_to_string a = Ok s ->
  e_to_string (mk1 t a) = Ok (op_sign t ++ shown t a s).
Proof.
  intros W H. unfold e_to_string. rewrite (raw_mk1 0 t a _ (raw_shown t a s W H)).
  destruct t; reflexivity.
Qed.
Lemma text_mk2 t a b s r : wf a -> wf b -> e_to_string a = Ok s -> e_to_string b = Ok r ->
  e_to_string (mk2 t a b) = Ok (shown t a s ++ " " ++ op_sign t ++ " " ++ shown t b r).
Proof.
  intros W W' H H'. unfold e_to_string.
  rewrite (raw_mk2 0 t a b _ _ (raw_shown t a s W H) (raw_shown t b r W' H')).
  destruct t; reflexivity.
Qed.

(** Taylor coefficients are numbers or quotients, so never need parentheses in a product *)
Definition tight (c : expr) : Prop :=
  match root c with Operator op => (3 <= binds (descriptor op))%Z | Operand _ => True end.

Lemma div_agg_tight m a b c : wf a -> wf b -> num_aggregate m (e_div a b) = Ok c -> tight c.
Proof.
  intros Wa Wb H. assert (W : wf (e_div a b)) by (apply wf_mk2; auto).
  destruct (agg_wf_inv m _ _ W H) as [[E _]|[(t & u & u' & Ht & E & _)|(t & u & v & l & r & Ht & E & _ & _ & _ & _ & A)]].
  - discriminate E.
  - discriminate E.
  - injection E as E1 E2 E3. destruct t; try discriminate E1. inversion A; subst; unfold tight; simpl; auto; lia.
Qed.

Lemma taylor_loop_tight m x at_ : wf at_ -> forall n k f r c coef res, wf r -> num_ok f ->
  Forall tight c -> taylor_loop m x at_ n k f r c = Ok (coef, res) -> Forall tight coef.
Proof.
  intros Wa. induction n as [|n IH]; intros k f r c coef res Wr Hf Hc H.
  - injection H as <- <-. auto.
  - cbn [taylor_loop] in H. inv_bind H. inv_bind H. inv_bind H. inv_bind H. inv_bind H.
    apply sn_of_u64_ok in Hb. pose proof (sn_mul_ok _ _ _ _ Hf Hb Hb0) as Hf'.
    assert (wf a1) as Ws. { eapply agg_wf; [|exact Hb1]. apply subst_wf; assumption. }
    eapply IH; [| | |exact H].
    + exact (deriv_wf _ _ _ _ Wr Hb3).
    + exact Hf'.
    + apply Forall_app. split; [assumption|]. constructor; [|constructor].
      eapply div_agg_tight; [| |exact Hb2]; [assumption|]. now apply wf_num.
Qed.

Lemma shown_tight c s : tight c -> shown OMul c s = s.
Proof.
  unfold tight, shown. destruct (root c); [|reflexivity]. intros H. change (binds OMul) with 3%Z.
  destruct (Z.ltb_spec (binds (descriptor op)) 3); [lia|reflexivity].
Qed.

Lemma wf_idx k : in_i64 k = true -> wf (e_of_i64 k).
Proof. intros H. apply wf_num, sn_of_i64_ok, H. Qed.

(** each printed term is the text of the product *)
Lemma monomial_text b k c s p : wf b -> in_i64 k = true -> wf c -> tight c ->
  e_to_string c = Ok s -> e_to_string (e_pow b (e_of_i64 k)) = Ok p ->
  e_to_string (e_mul c (e_pow b (e_of_i64 k))) = Ok (s ++ " * " ++ p).
Proof.
  intros Wb Ik Wc Tc Hs Hp.
  assert (Wp : wf (e_pow b (e_of_i64 k))) by (apply wf_mk2; auto using wf_idx).
  unfold e_mul. rewrite (text_mk2 OMul c _ s p Wc Wp Hs Hp). rewrite shown_tight by assumption.
  reflexivity.
Qed.

(** texts of a list of terms, each followed by " + " *)
Fixpoint texts (l : list expr) : res string :=
  match l with
  | [] => Ok ""
  | e :: l => (let* s := e_to_string e in let* r := texts l in Ok (s ++ " + " ++ r))%res
  end.

Lemma terms_texts b cs : wf b -> forall k, (0 <= k)%Z -> (k + Z.of_nat (List.length cs) < two63)%Z ->
  Forall wf cs -> Forall tight cs ->
  terms_to_string b k cs = texts (monomials b k cs).
Proof.
  intros Wb. induction cs as [|c cs IH]; intros k Hk Hl W T; [reflexivity|].
  inversion W as [|? ? Wc Wcs]; subst. inversion T as [|? ? Tc Tcs]; subst.
  cbn [List.length] in Hl. cbn [terms_to_string monomials].
  assert (E : terms_to_string b (k + 1) cs = texts (monomials b (k + 1) cs)) by (apply IH; auto; lia).
  destruct (is_zero c); [exact E|]. cbn [app texts].
  assert (Ik : in_i64 k = true) by (apply in_i64_iff; unfold two63 in *; lia).
  destruct (to_string_total c Wc 0) as [s Hs].
  assert (Wp : wf (e_pow b (e_of_i64 k))) by (apply wf_mk2; auto using wf_idx).
  destruct (to_string_total _ Wp 0) as [p Hp].
  unfold e_to_string at 1 2. rewrite Hs, Hp. cbn [bind].
  rewrite (monomial_text b k c s p); auto. cbn [bind]. rewrite E.
  destruct (texts _); cbn [bind]; try reflexivity. now rewrite !app_assoc_s.
Qed.

Definition loose_ge2 (e : expr) : Prop :=
  match root e with Operator op => (2 <= binds (descriptor op))%Z | Operand _ => True end.
Lemma shown_add e s : loose_ge2 e -> shown OAdd e s = s.
Proof.
  unfold loose_ge2, shown. destruct (root e); [|reflexivity]. intros H. change (binds OAdd) with 2%Z.
  destruct (Z.ltb_spec (binds (descriptor op)) 2); [lia|reflexivity].
Qed.

Lemma sum_text ps : forall p s, wf p -> loose_ge2 p -> Forall wf ps -> Forall loose_ge2 ps ->
  e_to_string p = Ok s ->
  exists r, texts ps = Ok r /\
    match e_to_string (sum_of p ps) with Ok w => w ++ " + " = s ++ " + " ++ r | _ => False end.
Proof.
  induction ps as [|q ps IH]; intros p s Wp Lp W L Hs.
  - exists "". cbn [texts]. unfold sum_of. cbn [fold_left]. rewrite Hs.
    split; reflexivity.
  - inversion W as [|? ? Wq Wqs]; subst. inversion L as [|? ? Lq Lqs]; subst.
    destruct (to_string_total q Wq 0) as [t Ht].
    assert (Hp : e_to_string (e_add p q) = Ok (s ++ " + " ++ t)).
    { unfold e_add. rewrite (text_mk2 OAdd p q s t Wp Wq Hs Ht), !shown_add by assumption. reflexivity. }
    assert (Wpq : wf (e_add p q)) by (apply wf_mk2; auto).
    destruct (IH (e_add p q) _ Wpq ltac:(unfold loose_ge2; simpl; lia) Wqs Lqs Hp) as (r & R & E).
    change (sum_of (e_add p q) ps) with (sum_of p (q :: ps)) in E.
    exists (t ++ " + " ++ r). cbn [texts]. unfold e_to_string at 1. rewrite Ht. cbn [bind]. rewrite R. cbn [bind].
    destruct (e_to_string (sum_of p (q :: ps))) as [w| | |]; try (exfalso; exact E).
    split; [reflexivity|]. rewrite E. now rewrite !app_assoc_s.
Qed.

Lemma monomials_wf b cs : wf b -> forall k, (0 <= k)%Z -> (k + Z.of_nat (List.length cs) < two63)%Z ->
  Forall wf cs -> Forall wf (monomials b k cs).
Proof.
  intros Wb. induction cs as [|c cs IH]; intros k Hk Hl W; [constructor|].
  inversion W as [|? ? Wc Wcs]; subst. cbn [List.length] in Hl. cbn [monomials].
  assert (Ik : in_i64 k = true) by (apply in_i64_iff; unfold two63 in *; lia).
  apply Forall_app. split; [|apply IH; auto; lia].
  destruct (is_zero c); constructor; [|constructor].
  apply wf_mk2; [reflexivity|assumption|]. apply wf_mk2; auto using wf_idx.
Qed.
Lemma monomials_loose b cs k : Forall loose_ge2 (monomials b k cs).
Proof.
  revert k. induction cs as [|c cs IH]; intros k; [constructor|]. cbn [monomials].
  apply Forall_app. split; [|apply IH]. destruct (is_zero c); constructor; [|constructor].
  unfold loose_ge2. simpl. lia.
Qed.

Lemma sn_of_u64_small m v : (0 <= v < two63)%Z -> sn_of_u64 m v = Ok (sn_of_i64 v).
Proof.
  intros H. unfold sn_of_u64, val_of_u64, cast_i64.
  replace (in_i64 v) with true by (symmetry; apply in_i64_iff; unfold two63 in *; lia). reflexivity.
Qed.

Theorem expansion_text m e x at_ n t b :
  wf e -> wf at_ -> (0 <= n)%Z -> (n + 2 < two63)%Z ->
  taylor_expansion m e (e_var x) at_ n = Ok (ROk t) ->
  num_aggregate m (e_sub (e_var x) at_) = Ok b ->
  exists o, e_to_string (e_pow b (e_of_i64 (n + 1))) = Ok o /\
  match monomials b 0 (ex_coef t) with
  | [] => expansion_to_string m t = Ok ("O(" ++ o ++ ")")
  | p :: ps => exists s, e_to_string (sum_of p ps) = Ok s /\
      expansion_to_string m t = Ok (s ++ " + O(" ++ o ++ ")")
  end.
Proof.
  intros We Wa Hn Hn2 H Hb.
  assert (Wb : wf b).
  { eapply agg_wf; [|exact Hb]. apply wf_mk2; [reflexivity|apply wf_var|assumption]. }
  unfold taylor_expansion in H. cbn [to_variable root e_var] in H. inv_bind H.
  injection H as <-. unfold taylor_var in Hb0. inv_bind Hb0. destruct a0 as [coef res].
  injection Hb0 as <-. rename Hb1 into HL.
  pose proof (taylor_loop_wf m x at_ Wa _ _ _ _ _ _ _ We (sn_of_i64_ok 1 eq_refl) (Forall_nil _) HL) as [Wc _].
  pose proof (taylor_loop_tight m x at_ Wa _ _ _ _ _ _ _ We (sn_of_i64_ok 1 eq_refl) (Forall_nil _) HL) as Tc.
  assert (Len : Z.of_nat (List.length coef) = (n + 1)%Z).
  { apply (taylor_loop_spec m x at_ (Z.to_nat (n + 1)) 0) in HL; [|reflexivity].
    destruct HL as (cs & -> & Hl & _). cbn [app]. lia. }
  cbn [ex_coef].
  assert (Io : in_i64 (n + 1) = true) by (apply in_i64_iff; unfold two63 in *; lia).
  assert (Wp : wf (e_pow b (e_of_i64 (n + 1)))) by (apply wf_mk2; auto using wf_idx).
  destruct (to_string_total _ Wp 0) as [o Ho]. exists o. split; [exact Ho|].
  assert (X : forall r, terms_to_string b 0 coef = Ok r ->
    expansion_to_string m (mkExpansion n (e_var x) at_ coef res) = Ok (r ++ "O(" ++ o ++ ")")).
  { intros r Hr. unfold expansion_to_string. cbn [ex_of ex_at ex_coef ex_order]. rewrite Hb. cbn [bind].
    rewrite Hr. cbn [bind]. unfold u64_add, ovf_u64.
    replace (in_u64 (n + 1)) with true.
    2:{ symmetry. unfold in_u64. apply andb_true_intro. split; [apply Z.leb_le|apply Z.ltb_lt]; unfold two63, two64 in *; lia. }
    cbn [bind]. unfold e_of_u64. rewrite sn_of_u64_small by lia. cbn [bind].
    unfold e_of_i64 in Ho. unfold e_to_string at 1. rewrite Ho. reflexivity. }
  assert (Hk : (0 + Z.of_nat (List.length coef) < two63)%Z) by lia.
  rewrite (terms_texts b coef Wb 0%Z ltac:(lia) Hk Wc Tc) in X.
  pose proof (monomials_wf b coef Wb 0 ltac:(lia) Hk Wc) as Wm.
  pose proof (monomials_loose b coef 0) as Lm.
  destruct (monomials b 0 coef) as [|p ps].
  - exact (X "" eq_refl).
  - inversion Wm as [|? ? W1 W2]; subst. inversion Lm as [|? ? L1 L2]; subst.
    destruct (to_string_total p W1 0) as [s Hs].
    destruct (sum_text ps p s W1 L1 W2 L2 Hs) as (r & R & E).
    destruct (e_to_string (sum_of p ps)) as [w| | |] eqn:Ew; try (exfalso; exact E).
    exists w. split; [reflexivity|]. rewrite (X (s ++ " + " ++ r)).
    + rewrite <- E. now rewrite !app_assoc_s.
    + cbn [texts]. unfold e_to_string. rewrite Hs. cbn [bind]. rewrite R. reflexivity.
Qed.
