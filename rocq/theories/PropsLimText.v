(** * PropsLimText: the text of limit answers (C59) *)
From Coq Require Import ZArith QArith List String Ascii Bool Lia.
From Verif Require Import Base Float Rational SmartNum Ast Compute Limit Display Spec SpecTree SpecDisp.
From Verif Require Import BaseProofs RationalProofs NumProofs NumProofs2 TreeProofs TreeProofs2 DispProofs DispParse DispExpand.
From Verif Require Import PropsDisp.
Import ListNotations.
Open Scope string_scope.

Lemma word_app_inv a b : word_chars (a ++ b) -> word_chars a /\ word_chars b.
Proof.
  induction a as [|c a IH]; cbn; [auto|]. intros (H1 & H2 & H3 & H4). destruct (IH H4). auto.
Qed.
Definition marks := ["infinity"; "~"; "0"].
Lemma marks_word s : In s marks -> word_chars s.
Proof. cbn. intros [<-|[<-|[<-|[]]]]; cbn; repeat split; discriminate. Qed.
Lemma marks_first s : In s marks -> exists c t, s = String c t /\ (c = "i" \/ c = "~" \/ c = "0")%char.
Proof. cbn. intros [<-|[<-|[<-|[]]]]; do 2 eexists; split; try reflexivity; auto. Qed.

Lemma dig_first s z : numeral s z -> exists c t, s = String c t /\ digit_value c <> None.
Proof.
  intros [N H]. destruct s as [|c t]; [congruence|]. exists c, t. split; [reflexivity|].
  cbn in H. destruct (digit_value c); congruence.
Qed.
Lemma Zstr_marks z s : string_of_Z z = s -> In s marks -> z = 0%Z.
Proof.
  intros <- K. destruct (Z.lt_ge_cases z 0) as [L|L].
  - rewrite string_of_neg in K by exact L. cbn in K. decompose [or] K; try discriminate; contradiction.
  - pose proof (numeral_nonneg z L) as [N D]. destruct K as [K|[K|[K|[]]]]; rewrite <- K in D; vm_compute in D; congruence.
Qed.
Lemma app_len a b : String.length (a ++ b) = (String.length a + String.length b)%nat.
Proof. induction a; simpl; congruence. Qed.
Lemma in_char c a : (exists p q, a = p ++ String c q) -> forall s, In s marks -> (c = "/" \/ c = ".")%char -> a <> s.
Proof.
  intros (p & q & ->) s K Hc E. 
  assert (forall t, In t marks -> forall p q, p ++ String c q = t -> False) as F; [|exact (F s K p q E)].
  clear - Hc. intros t K. cbn in K. decompose [or] K; clear K; subst; try contradiction; intros p q E;
    repeat (destruct p as [|? p]; cbn in E; [injection E; intros; destruct Hc; subst; discriminate|]; injection E; clear E; intros E _; cbn in E);
    destruct p; discriminate.
Qed.
Lemma num_marks n s : num_ok n -> sn_to_string n = Ok s -> In s marks -> s = "0" /\ sn_is_zero n = true.
Proof.
  intros [V T] H K. unfold sn_to_string in H. unfold sn_is_zero. destruct (ntag n); cbn in H.
  - injection H as <-. auto.
  - injection H as <-. cbn in K. decompose [or] K; try discriminate; contradiction.
  - injection H as <-. cbn in K. decompose [or] K; try discriminate; contradiction.
  - injection H as <-. cbn in K. decompose [or] K; try discriminate; contradiction.
  - exfalso. injection H as H. destruct T as [T0 T1]. destruct (nval n) as [z|r|f]; cbn [val_to_string] in H.
    + apply Zstr_marks in H; [|exact K]. subst z. discriminate.
    + revert H. apply (in_char "/"); [|exact K|auto]. unfold rat_to_string.
      exists ((if (rsign r =? 1)%Z then "" else "-") ++ string_of_Z (rnum r)), (string_of_Z (rden r)).
      rewrite app_assoc_s. reflexivity.
    + assert (forall k, exists p q, fixed3 k = p ++ String "." q) as F3.
      { intros k. unfold fixed3. eexists _, _. reflexivity. }
      assert (forall k, fixed3 k <> s) as N1.
      { intros k. apply (in_char "."); [apply F3|exact K|auto]. }
      assert (forall k, "-" ++ fixed3 k <> s) as N2.
      { intros k. apply (in_char "."); [|exact K|auto]. destruct (F3 k) as (p & q & ->). exists ("-" ++ p), q. reflexivity. }
      destruct f as [b|b| |b p e]; cbn [f_to_string] in H; try destruct b; cbn [append] in H.
      * apply (N2 0%Z). exact H.
      * apply (N1 0%Z). exact H.
      * subst s. cbn in K. decompose [or] K; try discriminate; contradiction.
      * subst s. cbn in K. decompose [or] K; try discriminate; contradiction.
      * subst s. cbn in K. decompose [or] K; try discriminate; contradiction.
      * apply (N2 (thousandths p e)). exact H.
      * apply (N1 (thousandths p e)). exact H.
Qed.

Lemma expr_marks w s : wf w -> e_to_string w = Ok s -> In s marks ->
  w = e_var s \/ (s = "0" /\ is_zero w = true).
Proof.
  intros W H K. revert H. pattern w. revert w W. apply wf_ind1.
  - intros n Hn H. right. exact (num_marks n s Hn H K).
  - intros x [= ->]. left. reflexivity.
  - intros t a Ht Wa _ H. exfalso. destruct (c41_expression a Wa) as [sa Ea].
    rewrite (text_mk1 t a sa Wa Ea) in H. injection H as <-. destruct (marks_first _ K) as (c & u & E & Hc).
    destruct t; try discriminate; cbn in E; injection E; intros; subst c; decompose [or] Hc; discriminate.
  - intros t a b Ht Wa Wb _ _ H. exfalso.
    destruct (c41_expression a Wa) as [sa Ea]. destruct (c41_expression b Wb) as [sb Eb].
    rewrite (text_mk2 t a b sa sb Wa Wb Ea Eb) in H. injection H as <-. apply marks_word in K.
    apply word_app_inv in K as [_ K]. cbn in K. destruct K as [K _]. congruence.
Qed.

(** ** C59 the text of an answer of [limit] says which answer it is *)
(** unless the answer is a variable called "infinity", "~" or "0" *)
Theorem c59_kinds l s :
  (forall w, l = Normal w -> wf w /\ w <> e_var "infinity" /\ w <> e_var "~" /\ w <> e_var "0") ->
  l_to_string l = Ok s ->
  (s = "infinity" <-> l = Infinity) /\
  (s = "~" <-> l = BoundedFluctuation) /\
  (s = "0" <-> l = Infinitesimal \/ exists w, l = Normal w /\ is_zero w = true).
Proof.
  intros HN H. destruct l as [| | |w]; cbn [l_to_string] in H; try (injection H as <-).
  1-3: repeat split; try discriminate; try congruence; auto; try (intros [C|(w & C & _)]; discriminate).
  destruct (HN w eq_refl) as (W & N1 & N2 & N3).
  assert (forall k, In k marks -> s = k -> k = "0" /\ is_zero w = true) as M.
  { intros k K <-. destruct (expr_marks w s W H K) as [E|E]; [|exact E]. exfalso.
    cbn in K. decompose [or] K; clear K; subst; try contradiction; congruence. }
  split; [|split]; split.
  - intros E. destruct (M "infinity" ltac:(cbn; auto) E). discriminate.
  - discriminate.
  - intros E. destruct (M "~" ltac:(cbn; auto) E). discriminate.
  - discriminate.
  - intros E. destruct (M "0" ltac:(cbn; auto) E). right. eauto.
  - intros [C|(w' & [= <-] & Z)]; [discriminate|]. destruct w as [[op|[n|y]] c]; try discriminate.
    apply wf_operand_inv in W as [-> W]. cbn in H. unfold is_zero, lift_od in Z. cbn in Z. unfold sn_is_zero in Z. unfold sn_to_string in H.
    destruct (ntag n); try discriminate. cbn in H. congruence.
Qed.
Print Assumptions c59_kinds.

(** such names do confuse *)
Example c59_names : l_to_string (Normal (e_var "infinity")) = l_to_string Infinity.
Proof. reflexivity. Qed.
Example c59_example : wf (e_add (e_var "x") (e_of_i64 10)) /\
  l_to_string (Normal (e_add (e_var "x") (e_of_i64 10))) = Ok "x + 10" /\
  l_to_string Infinitesimal = Ok "0" /\ l_to_string (Normal (e_of_i64 10)) = Ok "10".
Proof.
  split; [|repeat split]. apply wf_mk2; [reflexivity|constructor|]. apply wf_num', sn_of_i64_ok. reflexivity.
Qed.
