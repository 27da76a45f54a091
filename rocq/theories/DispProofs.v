(** * DispProofs: lemmas about printing *)
From Coq Require Import ZArith QArith Qpower Qabs List String Ascii Bool Lia.
From Coq Require Import Decimal DecimalString DecimalZ DecimalFacts Floats.SpecFloat.
From Verif Require Import Base Float Rational SmartNum Ast Compute Limit Display Spec SpecDisp.
From Verif Require Import BaseProofs RationalProofs NumProofs NumProofs2 TreeProofs.
Import ListNotations.
Open Scope Z_scope.
Open Scope string_scope.

(** ** decimal numerals *)
Fixpoint udec (acc : Z) (d : Decimal.uint) : Z :=
  match d with
  | Nil => acc
  | D0 d => udec (10 * acc) d
  | D1 d => udec (10 * acc + 1) d
  | D2 d => udec (10 * acc + 2) d
  | D3 d => udec (10 * acc + 3) d
  | D4 d => udec (10 * acc + 4) d
  | D5 d => udec (10 * acc + 5) d
  | D6 d => udec (10 * acc + 6) d
  | D7 d => udec (10 * acc + 7) d
  | D8 d => udec (10 * acc + 8) d
  | D9 d => udec (10 * acc + 9) d
  end.

Lemma digits_from_uint d acc :
  digits_from acc (NilEmpty.string_of_uint d) = Some (udec acc d).
Proof.
  revert acc. induction d; intros acc; simpl; [reflexivity|..];
    rewrite ?Z.add_0_r; apply IHd.
Qed.

Lemma udec_acc d p : udec (Zpos p) d = Zpos (Pos.of_uint_acc d p).
Proof.
  revert p. induction d; intros p; cbn [udec Pos.of_uint_acc]; [reflexivity|..];
    rewrite <- IHd; apply (f_equal (fun z => udec z d)); lia.
Qed.

Lemma udec_of_uint d : udec 0 d = Z.of_uint d.
Proof.
  unfold Z.of_uint. induction d; simpl udec; simpl Pos.of_uint; try reflexivity;
    try (rewrite udec_acc; reflexivity). exact IHd.
Qed.

Lemma digits_from_NilZero d : digits_from 0 (NilZero.string_of_uint d) = Some (Z.of_uint d).
Proof.
  destruct d; try (rewrite <- udec_of_uint; apply digits_from_uint). reflexivity.
Qed.

Lemma NilZero_nonempty d : NilZero.string_of_uint d <> "".
Proof. destruct d; discriminate. Qed.

Lemma numeral_nonneg z : 0 <= z -> numeral (string_of_Z z) z.
Proof.
  intros H. unfold numeral, string_of_Z.
  pose proof (DecimalZ.of_to z) as E.
  destruct (Z.to_int z) as [u|u] eqn:Eu.
  - simpl. split; [apply NilZero_nonempty|]. rewrite digits_from_NilZero. f_equal. exact E.
  - exfalso. destruct z as [|p|p]; try discriminate Eu. lia.
Qed.

Lemma string_of_neg z : z < 0 -> string_of_Z z = "-" ++ string_of_Z (- z).
Proof. intros H. destruct z as [|p|p]; try lia. reflexivity. Qed.

Lemma denotes_Z z : exists q, denotes (string_of_Z z) q /\ (q == inject_Z z)%Q.
Proof.
  destruct (Z.lt_ge_cases z 0) as [H|H].
  - exists (- inject_Z (- z))%Q. split.
    + rewrite string_of_neg by assumption. apply Den_neg, Den_int, numeral_nonneg. lia.
    + rewrite <- inject_Z_opp. now rewrite Z.opp_involutive.
  - exists (inject_Z z). split; [|reflexivity]. apply Den_int, numeral_nonneg. lia.
Qed.

(** ** denotes is functional *)
Fixpoint all_digits (s : string) : bool :=
  match s with
  | EmptyString => true
  | String c s' => match digit_value c with Some _ => all_digits s' | None => false end
  end.
Lemma digits_all acc s z : digits_from acc s = Some z -> all_digits s = true.
Proof.
  revert acc. induction s as [|c s IH]; intros acc; simpl; [reflexivity|].
  destruct (digit_value c); [apply IH|discriminate].
Qed.
Lemma numeral_all s z : numeral s z -> all_digits s = true.
Proof. intros [_ H]. eapply digits_all, H. Qed.

Lemma all_digits_app s t : all_digits (s ++ t) = all_digits s && all_digits t.
Proof.
  induction s as [|c s IH]; simpl; [reflexivity|]. destruct (digit_value c); [apply IH|reflexivity].
Qed.

(** splitting at the first non-digit is unique *)
Lemma split_unique s t s' t' c c' : all_digits s = true -> all_digits s' = true ->
  digit_value c = None -> digit_value c' = None ->
  s ++ String c t = s' ++ String c' t' -> s = s' /\ c = c' /\ t = t'.
Proof.
  revert s'. induction s as [|a s IH]; intros s' H H' C C' E; destruct s' as [|a' s']; simpl in *.
  - injection E as -> ->. auto.
  - injection E as -> E. rewrite C in H'. discriminate.
  - injection E as -> E. rewrite C' in H. discriminate.
  - injection E as -> E. destruct (digit_value a'); [|discriminate].
    destruct (IH s' H H' C C' E) as [-> [-> ->]]. auto.
Qed.

Lemma not_all_digits_app s c t : digit_value c = None -> all_digits (s ++ String c t) = false.
Proof.
  intros H. rewrite all_digits_app. simpl. rewrite H. apply andb_false_r.
Qed.

Lemma numeral_unique s z z' : numeral s z -> numeral s z' -> z = z'.
Proof. intros [_ A] [_ B]. rewrite A in B. now injection B. Qed.

Lemma numeral_cons s z : numeral s z -> exists c t, s = String c t /\ digit_value c <> None.
Proof.
  intros [N H]. destruct s as [|c t]; [now elim N|]. exists c, t. split; [reflexivity|].
  simpl in H. destruct (digit_value c); discriminate.
Qed.

Lemma denotes_unique s q : denotes s q -> forall q', denotes s q' -> (q == q')%Q.
Proof.
  induction 1 as [s z Hs|s t n d Hs Ht|s t i f Hs Ht|s q H IH]; intros q' H'.
  - inversion H' as [s' z' Hs'|s' t' n' d' Hs' Ht' E|s' t' i' f' Hs' Ht' E|s' q0 H0 E]; subst.
    + rewrite (numeral_unique _ _ _ Hs Hs'). reflexivity.
    + exfalso. apply numeral_all in Hs. simpl append in Hs. rewrite not_all_digits_app in Hs by reflexivity. discriminate.
    + exfalso. apply numeral_all in Hs. simpl append in Hs. rewrite not_all_digits_app in Hs by reflexivity. discriminate.
    + exfalso. apply numeral_all in Hs. discriminate Hs.
  - inversion H' as [s' z' Hs' E|s' t' n' d' Hs' Ht' E|s' t' i' f' Hs' Ht' E|s' q0 H0 E].
    + exfalso. apply numeral_all in Hs'. subst s'. simpl append in Hs'. rewrite not_all_digits_app in Hs' by reflexivity. discriminate.
    + apply split_unique in E as (E1 & _ & E3); eauto using numeral_all. subst.
      pose proof (numeral_unique _ _ _ Hs Hs') as ->. pose proof (numeral_unique _ _ _ Ht Ht') as Ed.
      injection Ed as ->. reflexivity.
    + apply split_unique in E as (E1 & E2 & E3); eauto using numeral_all. discriminate.
    + exfalso. destruct (numeral_cons _ _ Hs) as (c & r & -> & C). simpl in E. injection E as <- E.
      now apply C.
  - inversion H' as [s' z' Hs' E|s' t' n' d' Hs' Ht' E|s' t' i' f' Hs' Ht' E|s' q0 H0 E].
    + exfalso. apply numeral_all in Hs'. subst s'. simpl append in Hs'. rewrite not_all_digits_app in Hs' by reflexivity. discriminate.
    + apply split_unique in E as (E1 & E2 & E3); eauto using numeral_all. discriminate.
    + apply split_unique in E as (E1 & _ & E3); eauto using numeral_all. subst.
      pose proof (numeral_unique _ _ _ Hs Hs') as ->. pose proof (numeral_unique _ _ _ Ht Ht') as ->.
      reflexivity.
    + exfalso. destruct (numeral_cons _ _ Hs) as (c & r & -> & C). simpl in E. injection E as <- E.
      now apply C.
  - inversion H' as [s' z' Hs' E|s' t' n' d' Hs' Ht' E|s' t' i' f' Hs' Ht' E|s' q0 H0 E].
    + exfalso. subst s'. apply numeral_all in Hs'. discriminate Hs'.
    + exfalso. destruct (numeral_cons _ _ Hs') as (c & r & -> & C). simpl in E. injection E as -> E.
      now apply C.
    + exfalso. destruct (numeral_cons _ _ Hs') as (c & r & -> & C). simpl in E. injection E as -> E.
      now apply C.
    + subst. rewrite (IH q0 H0). reflexivity.
Qed.

(** ** floats *)
Lemma round_half_even_close n d : 0 < d ->
  - d <= 2 * (n - round_half_even n d * d) <= d.
Proof.
  intros H. unfold round_half_even.
  pose proof (Z.div_mod n d ltac:(lia)) as E. pose proof (Z.mod_pos_bound n d H) as B.
  destruct (Z.compare_spec (2 * (n mod d)) d) as [C|C|C]; [|nia|nia].
  destruct (Z.even (n / d)); nia.
Qed.

Lemma digit_str k : 0 <= k < 10 -> exists c, digit k = String c "" /\ digit_value c = Some k.
Proof.
  intros H. assert (K : k = 0 \/ k = 1 \/ k = 2 \/ k = 3 \/ k = 4 \/ k = 5 \/ k = 6 \/ k = 7 \/ k = 8 \/ k = 9) by lia.
  destruct K as [->|[->|[->|[->|[->|[->|[->|[->|[->| ->]]]]]]]]];
    (eexists; split; [vm_compute; reflexivity|reflexivity]).
Qed.

Lemma fixed3_denotes k : 0 <= k -> exists q, denotes (fixed3 k) q /\ (q == k # 1000)%Q.
Proof.
  intros H. unfold fixed3.
  destruct (digit_str (k / 100 mod 10)) as (a & Ea & Va); [apply Z.mod_pos_bound; lia|].
  destruct (digit_str (k / 10 mod 10)) as (b & Eb & Vb); [apply Z.mod_pos_bound; lia|].
  destruct (digit_str (k mod 10)) as (c & Ec & Vc); [apply Z.mod_pos_bound; lia|].
  rewrite Ea, Eb, Ec.
  eexists. split.
  - apply (Den_fixed _ (String a "" ++ String b "" ++ String c "") (k / 1000) (k mod 1000)).
    + apply numeral_nonneg. apply Z.div_pos; lia.
    + split; [discriminate|]. cbn [append digits_from]. rewrite Va, Vb, Vc. f_equal.
      pose proof (Z.div_mod k 1000 ltac:(lia)). pose proof (Z.mod_pos_bound k 1000 ltac:(lia)).
      pose proof (Z.div_mod k 10 ltac:(lia)). pose proof (Z.mod_pos_bound k 10 ltac:(lia)).
      pose proof (Z.div_mod (k / 10) 10 ltac:(lia)). pose proof (Z.mod_pos_bound (k / 10) 10 ltac:(lia)).
      pose proof (Z.div_mod (k / 100) 10 ltac:(lia)). pose proof (Z.mod_pos_bound (k / 100) 10 ltac:(lia)).
      assert (k / 10 / 10 = k / 100) by (rewrite Z.div_div; [reflexivity|lia|lia]).
      assert (k / 100 / 10 = k / 1000) by (rewrite Z.div_div; [reflexivity|lia|lia]).
      lia.
  - simpl String.length. change (10 ^ Z.of_nat 3)%Q with (1000 # 1)%Q.
    unfold Qeq, Qdiv, Qplus, Qmult, Qinv, inject_Z. cbn [Qnum Qden].
    pose proof (Z.div_mod k 1000 ltac:(lia)). lia.
Qed.

Lemma thousandths_close p e : exists q, f_val (S754_finite false p e) = Some q /\
  0 <= thousandths p e /\ (Qabs (q - (thousandths p e # 1000)) <= 1 # 2000)%Q.
Proof.
  eexists. split; [reflexivity|]. unfold thousandths.
  destruct e as [|e|e].
  - split; [lia|]. rewrite Qabs_Qle_condition. unfold Qle, Qminus, Qplus, Qopp, inject_Z.
    cbn [Qnum Qden]. split; lia.
  - assert (W : 0 <= Zpos p * 2 ^ Zpos e) by (apply Z.mul_nonneg_nonneg; [lia|apply Z.pow_nonneg; lia]).
    set (w := Zpos p * 2 ^ Zpos e) in *. clearbody w. split; [lia|].
    rewrite Qabs_Qle_condition. unfold Qle, Qminus, Qplus, Qopp, inject_Z.
    cbn [Qnum Qden]. split; lia.
  - assert (D : Z.pow_pos 2 e = Zpos (2 ^ e)) by (rewrite Pos2Z.inj_pow; reflexivity).
    rewrite D. set (d := (2 ^ e)%positive). clearbody d.
    pose proof (round_half_even_close (Zpos p * 1000) (Zpos d) ltac:(lia)) as C.
    set (k := round_half_even (Zpos p * 1000) (Zpos d)) in *.
    split.
    + destruct (Z.lt_ge_cases k 0) as [L|L]; [exfalso; nia|lia].
    + rewrite Qabs_Qle_condition. unfold Qle, Qminus, Qplus, Qopp, inject_Z.
      cbn [Qnum Qden]. rewrite !Pos2Z.inj_mul. clearbody k. split; lia.
Qed.

Lemma f_val_neg_finite p e q : f_val (S754_finite false p e) = Some q ->
  exists q', f_val (S754_finite true p e) = Some q' /\ (q' == - q)%Q.
Proof.
  intros H. injection H as <-. eexists. split; [reflexivity|].
  destruct e as [|e|e].
  - change (inject_Z (Z.neg p * 1) == - inject_Z (Z.pos p * 1))%Q.
    unfold Qeq, Qopp, inject_Z. cbn [Qnum Qden]. lia.
  - change (inject_Z (Z.neg p * 2 ^ Z.pos e) == - inject_Z (Z.pos p * 2 ^ Z.pos e))%Q.
    rewrite <- inject_Z_opp. apply inject_Z_injective. change (Z.neg p) with (- Z.pos p). ring.
  - unfold Qeq, Qopp. cbn [Qnum Qden]. lia.
Qed.

Lemma f_to_string_close f v : f_val f = Some v ->
  exists q, denotes (f_to_string f) q /\ (Qabs (v - q) <= 1 # 2000)%Q.
Proof.
  assert (N : forall s q v w, denotes s q -> (Qabs (v - q) <= 1 # 2000)%Q -> (w == - v)%Q ->
              exists q', denotes ("-" ++ s) q' /\ (Qabs (w - q') <= 1 # 2000)%Q).
  { intros s q v0 w H K E. exists (- q)%Q. split; [now apply Den_neg|].
    rewrite E. setoid_replace (- v0 - - q)%Q with (- (v0 - q))%Q by ring. now rewrite Qabs_opp. }
  destruct f as [s|s| |s p e]; intros H; try discriminate H.
  - injection H as <-. destruct (fixed3_denotes 0) as (q & D & E); [lia|].
    assert (K : (Qabs (0 - q) <= 1 # 2000)%Q) by (rewrite E; discriminate).
    destruct s; [apply (N _ q 0 0)%Q; auto; reflexivity|]. exists q. auto.
  - destruct (thousandths_close p e) as (v0 & V & P & C).
    destruct (fixed3_denotes _ P) as (q & D & E).
    assert (K : (Qabs (v0 - q) <= 1 # 2000)%Q) by (now rewrite E).
    destruct s.
    + destruct (f_val_neg_finite p e v0 V) as (w & W & Ew). rewrite W in H. injection H as <-.
      apply (N _ q v0 w); assumption.
    + rewrite V in H. injection H as <-. exists q. auto.
Qed.

(** ** numbers *)
Lemma sn_to_string_ok x : exists s, sn_to_string x = Ok s.
Proof. unfold sn_to_string. destruct (ntag x); simpl; eauto. Qed.

Lemma sn_to_string_exact x q s : num_ok x -> exact_Q x = Some q -> sn_to_string x = Ok s ->
  exists q', denotes s q' /\ (q' == q)%Q.
Proof.
  intros [I0 T] Hq Hs. unfold exact_Q in Hq. unfold sn_to_string in Hs.
  assert (Z0 : exists q', denotes "0" q' /\ (q' == 0)%Q) by (apply (denotes_Z 0)).
  assert (Z1 : exists q', denotes "1" q' /\ (q' == 1)%Q) by (apply (denotes_Z 1)).
  destruct (ntag x) eqn:Et; simpl in Hs; injection Hs as <-.
  - (* zero *) destruct Z0 as (q' & D & E). exists q'. split; [assumption|]. rewrite E.
    destruct (nval x) as [z|r|f]; simpl in T; [| |discriminate].
    + apply Z.eqb_eq in T. subst z. simpl in Hq. injection Hq as <-. reflexivity.
    + apply andb_prop in T as [T1 T2]. apply Z.eqb_eq in T1. apply negb_true_iff in T2.
      simpl in Hq. rewrite T2 in Hq. injection Hq as <-. unfold ratQ. rewrite T1, Z.mul_0_r. reflexivity.
  - (* one *) destruct Z1 as (q' & D & E). exists q'. split; [assumption|]. rewrite E.
    destruct (nval x) as [z|r|f]; simpl in T; [| |discriminate].
    + apply Z.eqb_eq in T. subst z. simpl in Hq. injection Hq as <-. reflexivity.
    + apply andb_prop in T as [T T2]. apply andb_prop in T as [T0 T1].
      apply Z.eqb_eq in T0, T1. apply negb_true_iff in T2.
      simpl in Hq. rewrite T2 in Hq. injection Hq as <-. apply Z.eqb_neq in T2.
      destruct I0 as [[_ [_ Id]] _].
      unfold ratQ, Qeq. cbn [Qnum Qden]. rewrite T0, T1, Z2Pos.id by lia. lia.
  - (* pi *) rewrite T in Hq. discriminate.
  - rewrite T in Hq. discriminate.
  - destruct (nval x) as [z|r|f]; [| |discriminate].
    + injection Hq as <-. apply denotes_Z.
    + cbn [val_Q] in Hq. destruct (rden r =? 0)%Z eqn:Ed; [discriminate|]. injection Hq as <-.
      apply Z.eqb_neq in Ed. destruct I0 as [[Is [In Id]] Iz].
      assert (D : denotes (string_of_Z (rnum r) ++ "/" ++ string_of_Z (rden r))
                          (rnum r # Z.to_pos (rden r))).
      { apply Den_frac; [apply numeral_nonneg; lia|].
        rewrite Z2Pos.id by lia. apply numeral_nonneg. lia. }
      cbn [val_to_string]. unfold rat_to_string. destruct Is as [Is|[Is|[Is _]]].
      * rewrite Is. cbn [Z.eqb Pos.eqb append]. eexists. split; [exact D|].
        unfold ratQ. rewrite Is, Z.mul_1_l. reflexivity.
      * rewrite Is. cbn [Z.eqb Pos.eqb append]. eexists. split; [apply Den_neg, D|].
        unfold ratQ. rewrite Is. unfold Qeq, Qopp. cbn [Qnum Qden]. lia.
      * exfalso. apply Ed, Iz, Is.
Qed.

(** ** expressions *)
Lemma raw_num u n : to_string_raw u (e_num n) = sn_to_string n.
Proof. reflexivity. Qed.
Lemma raw_var u x : to_string_raw u (e_var x) = Ok x.
Proof. reflexivity. Qed.

Definition parens (b : bool) (s : string) : string := if b then "(" ++ s ++ ")" else s.

Lemma raw_mk1 u t a s : to_string_raw (priority (gen_op t)) a = Ok s ->
  to_string_raw u (mk1 t a) = Ok (parens (priority (gen_op t) <? u)%Z (symbol (gen_op t) ++ s)).
Proof.
  intros H. unfold mk1. cbn [to_string_raw map]. rewrite H. cbn [bind].
  destruct (priority (gen_op t) <? u)%Z; reflexivity.
Qed.
Lemma raw_mk2 u t a b s r : to_string_raw (priority (gen_op t)) a = Ok s ->
  to_string_raw (priority (gen_op t)) b = Ok r ->
  to_string_raw u (mk2 t a b) =
    Ok (parens (priority (gen_op t) <? u)%Z (s ++ " " ++ symbol (gen_op t) ++ " " ++ r)).
Proof.
  intros H K. unfold mk2. cbn [to_string_raw map]. rewrite H, K. cbn [bind].
  destruct (priority (gen_op t) <? u)%Z; reflexivity.
Qed.

Lemma to_string_total e : wf e -> forall u, exists s, to_string_raw u e = Ok s.
Proof.
  revert e. apply (wf_ind1 (fun e => forall u, exists s, to_string_raw u e = Ok s)).
  - intros n _ u. apply sn_to_string_ok.
  - intros x u. eexists. reflexivity.
  - intros t a _ _ IH u. destruct (IH (priority (gen_op t))) as [s E].
    eexists. apply raw_mk1, E.
  - intros t a b _ _ _ IHa IHb u. destruct (IHa (priority (gen_op t))) as [s E].
    destruct (IHb (priority (gen_op t))) as [r F]. eexists. apply raw_mk2; eassumption.
Qed.

(** the context only decides whether the outermost operator gets parentheses *)
Lemma raw_context u e s : wf e -> e_to_string e = Ok s ->
  to_string_raw u e =
    Ok (parens (match root e with Operator op => (priority op <? u)%Z | Operand _ => false end) s).
Proof.
  intros W H. unfold e_to_string in H. destruct e as [[op|o] c]; [|exact H].
  cbn [to_string_raw root] in *.
  match type of H with (let* me := ?r in _)%res = _ => destruct r as [me| | |] eqn:E end; try discriminate H.
  cbn [bind] in H |- *.
  assert (P : (priority op <? 0)%Z = false).
  { inversion W as [| |t c' L F E1]; subst. destruct t; reflexivity. }
  rewrite P in H. injection H as <-.
  destruct (priority op <? u)%Z; reflexivity.
Qed.

(** ** balance *)
Lemma balanced_from_app n s t : no_parens s -> balanced_from n t -> balanced_from n (s ++ t).
Proof.
  induction s as [|c s IH]; simpl; [auto|]. intros (A & B & C) H.
  apply Ascii.eqb_neq in A, B. rewrite A, B. auto.
Qed.

(** [s] changes no depth: it can be inserted anywhere *)
Definition neutral (s : string) : Prop := forall n t, balanced_from n t -> balanced_from n (s ++ t).

Lemma app_assoc_s (a b c : string) : (a ++ b) ++ c = a ++ b ++ c.
Proof. induction a as [|x a IH]; simpl; [reflexivity|]. now rewrite IH. Qed.
Lemma app_nil_s (a : string) : a ++ "" = a.
Proof. induction a as [|x a IH]; simpl; [reflexivity|]. now rewrite IH. Qed.

Lemma neutral_np s : no_parens s -> neutral s.
Proof. intros H n t. now apply balanced_from_app. Qed.
Lemma neutral_app s t : neutral s -> neutral t -> neutral (s ++ t).
Proof. intros A B n u H. rewrite app_assoc_s. auto. Qed.
Lemma neutral_parens s : neutral s -> neutral ("(" ++ s ++ ")").
Proof.
  intros A n t H. rewrite !app_assoc_s. simpl. apply A. simpl. exact H.
Qed.
Lemma neutral_balanced s : neutral s -> balanced s.
Proof. intros H. unfold balanced. rewrite <- (app_nil_s s). now apply H. Qed.

Lemma digits_np s acc z : digits_from acc s = Some z -> no_parens s.
Proof.
  revert acc. induction s as [|c s IH]; intros acc; simpl; [auto|].
  destruct (digit_value c) eqn:E; [|discriminate]. intros H.
  repeat split; [intros ->; discriminate E|intros ->; discriminate E|eapply IH, H].
Qed.
Lemma np_app s t : no_parens s -> no_parens t -> no_parens (s ++ t).
Proof. induction s; simpl; intuition. Qed.
Lemma string_of_Z_np z : no_parens (string_of_Z z).
Proof.
  destruct (Z.lt_ge_cases z 0) as [H|H].
  - rewrite string_of_neg by assumption.
    split; [discriminate|]. split; [discriminate|].
    destruct (numeral_nonneg (- z)) as [_ K]; [lia|]. eapply digits_np, K.
  - destruct (numeral_nonneg z) as [_ K]; [lia|]. eapply digits_np, K.
Qed.
Lemma fixed3_np k : no_parens (fixed3 k).
Proof.
  unfold fixed3. apply np_app; [apply string_of_Z_np|].
  apply np_app; [repeat split; discriminate|].
  repeat apply np_app; apply string_of_Z_np.
Qed.
Lemma sn_to_string_np x s : sn_to_string x = Ok s -> no_parens s.
Proof.
  unfold sn_to_string. destruct (ntag x); simpl; intros H; injection H as <-;
    try (repeat split; discriminate).
  destruct (nval x) as [z|r|f]; simpl.
  - apply string_of_Z_np.
  - unfold rat_to_string. apply np_app; [destruct (rsign r =? 1)%Z; repeat split; discriminate|].
    apply np_app; [apply string_of_Z_np|]. apply np_app; [repeat split; discriminate|apply string_of_Z_np].
  - destruct f as [s|s| |s p e]; simpl; try destruct s; try (repeat split; discriminate).
    + apply np_app; [repeat split; discriminate|apply fixed3_np].
    + apply fixed3_np.
Qed.

Lemma symbol_np t : no_parens (symbol (gen_op t)).
Proof. destruct t; repeat split; discriminate. Qed.

Lemma raw_neutral e : wf e -> (forall x, occurs x e -> no_parens x) ->
  forall u s, to_string_raw u e = Ok s -> neutral s.
Proof.
  intros W. revert e W.
  apply (wf_ind1 (fun e => (forall x, occurs x e -> no_parens x) ->
           forall u s, to_string_raw u e = Ok s -> neutral s)).
  - intros n _ _ u s H. apply neutral_np, (sn_to_string_np n s H).
  - intros x Hx u s H. injection H as <-. apply neutral_np, Hx. exists []. apply sub_refl.
  - intros t a _ W IH Hx u s H.
    destruct (to_string_total a W (priority (gen_op t))) as [sa Ea].
    rewrite (raw_mk1 u t a sa Ea) in H. injection H as <-.
    assert (Na : neutral sa).
    { refine (IH _ _ _ Ea). intros x [c Hc]. apply Hx. exists c.
      apply (sub_child _ _ _ a); [left; reflexivity|exact Hc]. }
    assert (N : neutral (symbol (gen_op t) ++ sa)).
    { apply neutral_app; [apply neutral_np, symbol_np|exact Na]. }
    unfold parens. destruct (_ <? u)%Z; [now apply neutral_parens|exact N].
  - intros t a b _ Wa Wb IHa IHb Hx u s H.
    destruct (to_string_total a Wa (priority (gen_op t))) as [sa Ea].
    destruct (to_string_total b Wb (priority (gen_op t))) as [sb Eb].
    rewrite (raw_mk2 u t a b sa sb Ea Eb) in H. injection H as <-.
    assert (Na : neutral sa).
    { refine (IHa _ _ _ Ea). intros x [c Hc]. apply Hx. exists c.
      apply (sub_child _ _ _ a); [left; reflexivity|exact Hc]. }
    assert (Nb : neutral sb).
    { refine (IHb _ _ _ Eb). intros x [c Hc]. apply Hx. exists c.
      apply (sub_child _ _ _ b); [right; left; reflexivity|exact Hc]. }
    assert (N : neutral (sa ++ " " ++ symbol (gen_op t) ++ " " ++ sb)).
    { repeat apply neutral_app; auto; apply neutral_np; try apply symbol_np; repeat split; discriminate. }
    unfold parens. destruct (_ <? u)%Z; [now apply neutral_parens|exact N].
Qed.
