(** * PropsDisp: theorems about printing (C41, C42, C43, C48) *)
From Coq Require Import ZArith QArith Qabs List String Ascii Bool Lia.
From Coq Require Import Reals Qreals Lra.
From Coq Require Import Floats.SpecFloat.
From Verif Require Import Base Float Rational SmartNum Ast Compute Limit Display.
From Verif Require Import Spec SpecTree SpecR SpecDisp.
From Verif Require Import BaseProofs RationalProofs NumProofs NumProofs2 TreeProofs TreeProofs2 TreeProofs5.
From Verif Require Import DispProofs DispParse DispEval DispExpand.
From Verif Require PropsTree.
Import ListNotations.
Open Scope string_scope.

(** ** C41: to_string never panics *)
Theorem c41_expression e : wf e -> exists s, e_to_string e = Ok s.
Proof. intros W. now apply to_string_total. Qed.
Print Assumptions c41_expression.

Theorem c41_built m e : api_expr m e -> exists s, e_to_string e = Ok s.
Proof. intros H. apply c41_expression. exact (PropsTree.c18_builders m e H). Qed.
Print Assumptions c41_built.

Theorem c41_number x : exists s, sn_to_string x = Ok s.
Proof. apply sn_to_string_ok. Qed.
Print Assumptions c41_number.

(** results of the library's computations print as well *)
Theorem c41_results m e x v z : wf e -> wf v ->
  num_aggregate m e = Ok z \/ deriv m x e = Ok z \/ z = subst x v e ->
  exists s, e_to_string z = Ok s.
Proof.
  intros We Wv H. apply c41_expression. destruct H as [H|[H|H]].
  - now apply (agg_wf m e).
  - now apply (deriv_wf m x e).
  - subst z. now apply subst_wf.
Qed.
Print Assumptions c41_results.

Theorem c41_limit_value l : (forall e, l = Normal e -> wf e) -> exists s, l_to_string l = Ok s.
Proof.
  intros H. destruct l; simpl; eauto. apply c41_expression. now apply H.
Qed.
Print Assumptions c41_limit_value.

(** a hand-made operator node without operands (the fields are public) does panic *)
Theorem c41_ill_formed op : e_to_string (Expr (Operator op) []) = Panic.
Proof. reflexivity. Qed.
Print Assumptions c41_ill_formed.

Example c41_example :
  let e := e_mul (e_add (e_var "x") (e_of_i64 (-3))) (e_pow (e_sin (e_neg (e_var "y"))) (e_num sn_pi)) in
  api_expr Debug e /\ e_to_string e = Ok "(x + -3) * sin(-y) ^ pi".
Proof.
  split; [|reflexivity]. apply Ae_mul; [apply Ae_add|apply Ae_pow]; repeat constructor.
Qed.

(** ** C42: numbers print faithfully *)

(** reading a printed number is unambiguous (a property of the specification) *)
Theorem c42_reading_unique s p q : denotes s p -> denotes s q -> (p == q)%Q.
Proof. intros H. apply (denotes_unique s p H). Qed.
Print Assumptions c42_reading_unique.

(** exact numbers print a text that denotes exactly their value *)
Theorem c42_exact m x q : api_number m x -> exact_Q x = Some q ->
  exists s q', sn_to_string x = Ok s /\ denotes s q' /\ (q' == q)%Q.
Proof.
  intros H E. destruct (sn_to_string_ok x) as [s Hs]. exists s.
  destruct (sn_to_string_exact x q s (api_number_ok m x H) E Hs) as (q' & D & Eq). eauto.
Qed.
Print Assumptions c42_exact.

(** distinct exact values print differently, n/0 differently from every number *)
Theorem c42_injective m x y : api_number m x -> api_number m y -> exact_num x -> exact_num y ->
  sn_to_string x = sn_to_string y -> oQeq (exact_Q x) (exact_Q y).
Proof. intros Hx Hy. apply exact_text_value; eapply api_number_ok; eassumption. Qed.
Print Assumptions c42_injective.

Theorem c42_integer z : in_i64 z = true ->
  (0 <= z -> exists s, sn_to_string (sn_of_i64 z) = Ok s /\ numeral s z)%Z /\
  (z < 0 -> exists s, sn_to_string (sn_of_i64 z) = Ok ("-" ++ s) /\ numeral s (- z))%Z.
Proof.
  intros _.
  assert (E : sn_to_string (sn_of_i64 z) = Ok (string_of_Z z)).
  { unfold sn_of_i64, sn_of_val, val_of_i64, sn_to_string, val_is_zero, val_is_one. cbn [nval ntag].
    destruct (Z.eqb_spec z 1); [now subst|]. destruct (Z.eqb_spec z 0); [now subst|]. reflexivity. }
  rewrite E. split; intros H.
  - eexists. split; [reflexivity|]. now apply numeral_nonneg.
  - exists (string_of_Z (- z)). split; [now rewrite string_of_neg|]. apply numeral_nonneg. lia.
Qed.
Print Assumptions c42_integer.

Theorem c42_constants : sn_to_string sn_pi = Ok "pi" /\ sn_to_string sn_e = Ok "e".
Proof. split; reflexivity. Qed.
Print Assumptions c42_constants.

(** other f64-backed numbers: three decimals, within 0.0005 of the exact value *)
Theorem c42_float m x f v : api_number m x -> nval x = Real f ->
  sn_is_pi x = false -> sn_is_e x = false -> f_val f = Some v ->
  exists s q, sn_to_string x = Ok s /\ three_decimals s /\ denotes s q /\ (Qabs (v - q) <= 1 # 2000)%Q.
Proof.
  intros H Hf Np Ne Hv. destruct (api_number_ok m x H) as [_ T]. rewrite Hf in T.
  assert (Et : ntag x = TNothing).
  { unfold sn_is_pi, sn_is_e in *. destruct (ntag x); try discriminate; reflexivity. }
  destruct (f_to_string_close f v Hv) as (q & D & C).
  exists (f_to_string f), q. unfold sn_to_string. rewrite Et, Hf. simpl.
  split; [reflexivity|]. split; [|auto].
  assert (K : forall k, three_decimals (fixed3 k)).
  { intros k. assert (L : forall d, (0 <= d < 10)%Z -> String.length (digit d) = 1%nat).
    { intros d Hd. destruct (digit_str d Hd) as (c & -> & _). reflexivity. }
    assert (A : forall a b, String.length (a ++ b) = (String.length a + String.length b)%nat).
    { intros a b. induction a; simpl; congruence. }
    eexists _, _. split; [reflexivity|]. rewrite !A, !L; [reflexivity|..]; apply Z.mod_pos_bound; lia. }
  assert (N : forall s, three_decimals s -> three_decimals ("-" ++ s)).
  { intros s (t & u & -> & Hu). exists ("-" ++ t), u. auto. }
  destruct f as [s|s| |s p e]; try discriminate Hv; destruct s; simpl f_to_string;
    try apply N; apply K.
Qed.
Print Assumptions c42_float.

Lemma fixed3_three k : three_decimals (fixed3 k).
Proof.
  assert (L : forall d, (0 <= d < 10)%Z -> String.length (digit d) = 1%nat).
  { intros d Hd. destruct (digit_str d Hd) as (c & -> & _). reflexivity. }
  assert (A : forall a b, String.length (a ++ b) = (String.length a + String.length b)%nat).
  { intros a b. induction a; simpl; congruence. }
  eexists _, _. split; [reflexivity|]. rewrite !A, !L; [reflexivity|..]; apply Z.mod_pos_bound; lia.
Qed.
Lemma half_even_tie n d : (0 < d)%Z -> (2 * (n - round_half_even n d * d) = d \/ 2 * (n - round_half_even n d * d) = - d)%Z ->
  Z.even (round_half_even n d) = true.
Proof.
  intros D. unfold round_half_even. pose proof (Z.div_mod n d ltac:(lia)) as E. pose proof (Z.mod_pos_bound n d D) as B.
  destruct (2 * (n mod d) ?= d)%Z eqn:C; [apply Z.compare_eq in C|rewrite Z.compare_lt_iff in C|rewrite Z.compare_gt_iff in C]; intros [H|H]; try nia.
  - destruct (Z.even (n / d)) eqn:V; [exact V|exfalso; nia].
  - destruct (Z.even (n / d)) eqn:V; [exact V|]. rewrite Z.add_1_r, Z.even_succ, <- Z.negb_even, V. reflexivity.
Qed.
Lemma thousandths_exact p e : exists q, f_val (S754_finite false p e) = Some q /\ (0 <= thousandths p e)%Z /\
  (Qabs (inject_Z 1000 * q - inject_Z (thousandths p e)) <= 1 # 2)%Q /\
  (Qabs (inject_Z 1000 * q - inject_Z (thousandths p e)) == 1 # 2 -> Z.even (thousandths p e) = true)%Q.
Proof.
  destruct (thousandths_close p e) as (q & V & P & C). exists q. split; [exact V|]. split; [exact P|].
  assert (inject_Z 1000 * q - inject_Z (thousandths p e) == inject_Z 1000 * (q - (thousandths p e # 1000)))%Q as X.
  { assert (inject_Z (thousandths p e) == inject_Z 1000 * (thousandths p e # 1000))%Q as ->; [|ring].
    unfold Qeq, inject_Z, Qmult. cbn [Qnum Qden]. rewrite Pos.mul_1_l. lia. }
  split.
  - rewrite X, Qabs_Qmult. change (Qabs (inject_Z 1000)) with (inject_Z 1000).
    apply (Qle_trans _ (inject_Z 1000 * (1 # 2000))); [|discriminate]. apply Qmult_le_l; [reflexivity|exact C].
  - clear X C. intros H. change (Some (match e with Zneg d => (Z.pos p # Pos.pow 2 d)%Q | _ => inject_Z (Z.pos p * 2 ^ e) end) = Some q) in V.
    assert (q = match e with Zneg d => (Z.pos p # Pos.pow 2 d)%Q | _ => inject_Z (Z.pos p * 2 ^ e) end) as -> by congruence. clear V. unfold thousandths in *. destruct e as [|e|e].
    1,2: exfalso; revert H; match goal with |- (Qabs ?a == _)%Q -> _ => assert (a == 0)%Q as -> by (unfold Qeq, Qminus, Qplus, Qopp, Qmult, inject_Z; cbn [Qnum Qden]; lia) end; discriminate.
    change (Z.pow_pos 2 e) with (2 ^ Z.pos e)%Z in *. rewrite <- Pos2Z.inj_pow in *. set (d := (2 ^ e)%positive) in *.
    set (k := round_half_even (Z.pos p * 1000) (Z.pos d)) in *.
    apply half_even_tie; [reflexivity|]. fold k.
    assert (Qabs ((Z.pos p * 1000 - k * Z.pos d) # d) == 1 # 2)%Q as H'.
    { rewrite <- H. assert (inject_Z 1000 * (Z.pos p # d) - inject_Z k == (Z.pos p * 1000 - k * Z.pos d) # d)%Q as ->; [|reflexivity].
      unfold Qeq, Qminus, Qplus, Qopp, Qmult, inject_Z. cbn [Qnum Qden]. rewrite ?Pos.mul_1_l, ?Pos.mul_1_r. lia. }
    unfold Qabs, Qeq in H'. cbn [Qnum Qden] in H'. lia.
Qed.

(** Which three decimals: the sign bit, then the multiple k/1000 nearest to the absolute value,
    the even k of two equally near ones. *)
Theorem c42_float_rounding m x f v : api_number m x -> nval x = Real f ->
  sn_is_pi x = false -> sn_is_e x = false -> f_val f = Some v ->
  exists s k q, sn_to_string x = Ok ((if f_sign_bit f then "-" else "") ++ s) /\ three_decimals s /\
    denotes s q /\ (q == k # 1000)%Q /\
    (Qabs (inject_Z 1000 * Qabs v - inject_Z k) <= 1 # 2)%Q /\
    (Qabs (inject_Z 1000 * Qabs v - inject_Z k) == 1 # 2 -> Z.even k = true)%Q.
Proof.
  intros H Hf Np Ne Hv. destruct (api_number_ok m x H) as [_ T]. rewrite Hf in T.
  assert (Et : ntag x = TNothing).
  { unfold sn_is_pi, sn_is_e in *. destruct (ntag x); try discriminate; reflexivity. }
  unfold sn_to_string. rewrite Et, Hf. simpl negb. cbn [tag_eqb negb val_to_string]. 
  destruct f as [s|s| |s p e]; try discriminate Hv.
  - injection Hv as <-. destruct (fixed3_denotes 0) as (q & D & E); [lia|]. exists (fixed3 0), 0%Z, q.
    split; [reflexivity|]. split; [apply fixed3_three|]. split; [exact D|]. split; [exact E|]. split; [discriminate|]. reflexivity.
  - destruct (thousandths_exact p e) as (v0 & V & P & C1 & C2). destruct (fixed3_denotes _ P) as (q & D & E).
    exists (fixed3 (thousandths p e)), (thousandths p e), q. split; [destruct s; reflexivity|]. split; [apply fixed3_three|]. split; [exact D|]. split; [exact E|].
    assert (Qabs v == v0)%Q as A.
    { assert (0 <= v0)%Q as N0.
      { change (Some (match e with Zneg d => (Z.pos p # Pos.pow 2 d)%Q | _ => inject_Z (Z.pos p * 2 ^ e) end) = Some v0) in V.
        assert (v0 = match e with Zneg d => (Z.pos p # Pos.pow 2 d)%Q | _ => inject_Z (Z.pos p * 2 ^ e) end) as -> by congruence.
        destruct e as [|e|e]; unfold Qle, inject_Z; cbn [Qnum Qden]; [lia| |lia]. pose proof (Z.pow_nonneg 2 (Z.pos e) ltac:(lia)). nia. }
      destruct s.
      - assert (v == - v0)%Q as ->.
        { change (Some (match e with Zneg d => (Z.pos p # Pos.pow 2 d)%Q | _ => inject_Z (Z.pos p * 2 ^ e) end) = Some v0) in V.
          change (Some (match e with Zneg d => (Z.neg p # Pos.pow 2 d)%Q | _ => inject_Z (Z.neg p * 2 ^ e) end) = Some v) in Hv.
          assert (v0 = match e with Zneg d => (Z.pos p # Pos.pow 2 d)%Q | _ => inject_Z (Z.pos p * 2 ^ e) end) as -> by congruence.
          assert (v = match e with Zneg d => (Z.neg p # Pos.pow 2 d)%Q | _ => inject_Z (Z.neg p * 2 ^ e) end) as -> by congruence.
          destruct e as [|e|e]; unfold Qeq, Qopp, inject_Z; cbn [Qnum Qden]; rewrite <- ?Pos2Z.opp_pos; ring. }
        rewrite Qabs_opp. apply Qabs_pos, N0.
      - assert (v = v0) as -> by congruence. apply Qabs_pos, N0. }
    rewrite A. split; assumption.
Qed.
Print Assumptions c42_float_rounding.

Theorem c42_nonfinite m f x : api_number m x -> nval x = Real f -> f_val f = None ->
  sn_to_string x = Ok (match f with S754_infinity true => "-inf" | S754_infinity false => "inf" | _ => "NaN" end).
Proof.
  intros H Hf Hv. destruct (api_number_ok m x H) as [_ T]. rewrite Hf in T.
  assert (Et : ntag x = TNothing).
  { destruct (ntag x); try (exfalso; discriminate T); try reflexivity; injection T as ->; discriminate Hv. }
  unfold sn_to_string. rewrite Et, Hf. f_equal.
  destruct f as [s|s| |s p e]; try discriminate Hv; [|reflexivity]. destruct s; reflexivity.
Qed.
Print Assumptions c42_nonfinite.

(** fractions show their sign, numerator and denominator as stored *)
Theorem c42_fraction m s n d x : m = Debug \/ m = Release -> s = 1%Z \/ s = (-1)%Z ->
  in_u64 n = true -> in_u64 d = true -> d <> 0%Z ->
  sn_new_rational m s n d = Ok (Some x) -> sn_is_zero x = false -> sn_is_one x = false ->
  exists a b, numeral a n /\ numeral b d /\
    sn_to_string x = Ok ((if (s =? 1)%Z then "" else "-") ++ a ++ "/" ++ b).
Proof.
  intros Hm Hs Hn Hd Nz H Z0 Z1. exists (string_of_Z n), (string_of_Z d).
  unfold in_u64 in Hn, Hd. apply andb_prop in Hn as [Hn _], Hd as [Hd _]. apply Z.leb_le in Hn, Hd.
  split; [now apply numeral_nonneg|]. split; [now apply numeral_nonneg|].
  assert (E : nval x = Rational (mkRat s n d) /\ (ntag x = TZero \/ ntag x = TOne \/ ntag x = TNothing)).
  { unfold sn_new_rational, val_new_rational, rat_new in H. revert H.
    apply Z.eqb_neq in Nz.
    destruct Hs as [-> | ->], Hm as [-> | ->]; unfold i64_abs, ovf_i64;
      cbn [Z.abs]; change (in_i64 1) with true; cbn [bind Z.eqb Pos.eqb]; rewrite Nz; cbn [negb andb bind];
      intros [= <-]; (split; [reflexivity|]); cbn [ntag];
      repeat match goal with |- context [if ?c then _ else _] => destruct c end; auto. }
  destruct E as [Ev Et]. unfold sn_to_string.
  assert (Tn : ntag x = TNothing).
  { unfold sn_is_zero, sn_is_one in *. destruct Et as [Et|[Et|Et]]; rewrite Et in *; try discriminate; reflexivity. }
  rewrite Tn, Ev. reflexivity.
Qed.
Print Assumptions c42_fraction.

Example c42_example : exists x, sn_new_rational Debug (-1) 22 7 = Ok (Some x) /\
  sn_to_string x = Ok "-22/7" /\ denotes "-22/7" (- (22 # 7)) /\
  sn_to_string (sn_of_f64 (S754_finite true 6004799503160661 (-52))) = Ok "-1.333" /\
  sn_to_string (sn_of_i64 (-9223372036854775808)) = Ok "-9223372036854775808".
Proof.
  eexists. split; [vm_compute; reflexivity|]. split; [vm_compute; reflexivity|].
  split; [|split; vm_compute; reflexivity].
  apply (Den_neg "22/7"). apply (Den_frac "22" "7" 22 7); split; try discriminate; reflexivity.
Qed.

(** ** C43: text of expressions *)

(** the desired property: equal texts, equal meaning *)
Definition text_determines_value : Prop :=
  forall m e1 e2, api_expr m e1 -> api_expr m e2 -> e_to_string e1 = e_to_string e2 ->
  forall rho, eval rho e1 = eval rho e2.

Ltac api := unfold e_of_i64; repeat (apply Ae_num, An_i64; reflexivity) || constructor.

Lemma ev2_nums rho t a b u v : eval rho a = Some u -> eval rho b = Some v ->
  eval rho (mk2 t a b) = ev2 t u v.
Proof. intros A B. unfold mk2. cbn [eval map]. rewrite A, B. cbn [ev_op]. now rewrite gen_op_descr. Qed.
Lemma ev1_nums rho t a u : eval rho a = Some u -> eval rho (mk1 t a) = ev1 t u.
Proof. intros A. unfold mk1. cbn [eval map]. rewrite A. cbn [ev_op]. now rewrite gen_op_descr. Qed.
Lemma ev_int rho z : eval rho (e_of_i64 z) = Some (IZR z).
Proof.
  cbn [eval e_of_i64 e_num]. unfold num_R, sn_of_i64, sn_of_val, val_of_i64. cbn [nval ntag].
  unfold val_is_zero, val_is_one.
  assert (E : option_map Q2R (val_Q (Integer z)) = Some (IZR z)).
  { cbn [val_Q option_map]. f_equal. unfold Q2R, inject_Z. cbn [Qnum Qden]. field. }
  destruct (z =? 1)%Z; [exact E|]. destruct (z =? 0)%Z; exact E.
Qed.

(** x - (y - z) and (x - y) - z *)
Theorem c43_refuted_subtraction : ~ text_determines_value.
Proof.
  intros H. specialize (H Debug (e_sub (e_var "x") (e_sub (e_var "y") (e_var "z")))
    (e_sub (e_sub (e_var "x") (e_var "y")) (e_var "z"))).
  specialize (H ltac:(api) ltac:(api) eq_refl (fun _ => 1%R)).
  cbn in H. injection H as H. lra.
Qed.
Print Assumptions c43_refuted_subtraction.

(** x / (y ^ 2) and (x / y) ^ 2 *)
Theorem c43_refuted_power : ~ text_determines_value.
Proof.
  intros H. specialize (H Debug (e_div (e_var "x") (e_pow (e_var "y") (e_of_i64 2)))
    (e_pow (e_div (e_var "x") (e_var "y")) (e_of_i64 2))).
  specialize (H ltac:(api) ltac:(api) eq_refl (fun _ => 2%R)).
  assert (P : forall a, (0 < a)%R -> powR a 2 = Some (a * a)%R).
  { intros a Ha. unfold powR. destruct (Rlt_dec 0 a); [|contradiction]. f_equal.
    replace 2%R with (1 + 1)%R by ring. now rewrite Rpower_plus, Rpower_1. }
  unfold e_div, e_pow in H.
  rewrite (ev2_nums _ ODiv _ _ 2 (2 * 2)) in H.
  2: reflexivity.
  2:{ rewrite (ev2_nums _ OPow _ _ 2 2) by (reflexivity || apply ev_int). apply P. lra. }
  rewrite (ev2_nums _ OPow _ _ 1 2) in H.
  2:{ rewrite (ev2_nums _ ODiv _ _ 2 2) by reflexivity. cbn [ev2].
      destruct (Req_EM_T 2 0); [lra|]. f_equal. field. }
  2: apply ev_int.
  cbn [ev2] in H. rewrite P in H by lra. destruct (Req_EM_T (2 * 2) 0); [lra|].
  injection H as H. lra.
Qed.
Print Assumptions c43_refuted_power.

(** the number -2 squared, and minus the square of 2 *)
Theorem c43_refuted_negative_literal : ~ text_determines_value.
Proof.
  intros H. specialize (H Debug (e_pow (e_of_i64 (-2)) (e_of_i64 2))
    (e_neg (e_pow (e_of_i64 2) (e_of_i64 2)))).
  specialize (H ltac:(api) ltac:(api) eq_refl (fun _ => 0%R)).
  assert (P : powR 2 2 = Some (2 * 2)%R).
  { unfold powR. destruct (Rlt_dec 0 2); [|lra]. f_equal.
    replace 2%R with (1 + 1)%R at 2 by ring. rewrite Rpower_plus, Rpower_1; lra. }
  unfold e_neg, e_pow in H.
  rewrite (ev2_nums _ OPow (e_of_i64 (-2)) _ (-2) 2) in H by apply ev_int.
  rewrite (ev1_nums _ ONeg _ (2 * 2)) in H.
  2:{ rewrite (ev2_nums _ OPow _ _ 2 2) by apply ev_int. exact P. }
  cbn [ev2 ev1] in H.
  assert (I2 : Int_part 2 = 2%Z).
  { unfold Int_part. rewrite <- (tech_up 2 3); [reflexivity|lra|lra]. }
  unfold powR in H. destruct (Rlt_dec 0 (-2)); [lra|]. destruct (Req_EM_T (-2) 0); [lra|].
  rewrite I2 in H. destruct (Req_EM_T 2 2); [|lra]. injection H as H. 
  change (powerRZ (-2) 2) with ((-2) * ((-2) * 1))%R in H. lra.
Qed.
Print Assumptions c43_refuted_negative_literal.

(** the variable "sinx" and sin(x) *)
Theorem c43_refuted_names : ~ text_determines_value.
Proof.
  intros H. specialize (H Debug (e_var "sinx") (e_sin (e_var "x"))).
  specialize (H ltac:(api) ltac:(api) eq_refl (fun s => if String.eqb s "x" then 0 else 1)%R).
  cbn in H. injection H as H. rewrite sin_0 in H. lra.
Qed.
Print Assumptions c43_refuted_names.

(** what does hold (1): an operand appears with its own text, in parentheses exactly when it
    is an operator that binds less tightly *)
Theorem c43_unary t a s : wf a -> e_to_string a = Ok s ->
  e_to_string (mk1 t a) = Ok (op_sign t ++ shown t a s).
Proof. apply text_mk1. Qed.
Print Assumptions c43_unary.
Theorem c43_binary t a b s r : wf a -> wf b -> e_to_string a = Ok s -> e_to_string b = Ok r ->
  e_to_string (mk2 t a b) = Ok (shown t a s ++ " " ++ op_sign t ++ " " ++ shown t b r).
Proof. apply text_mk2. Qed.
Print Assumptions c43_binary.

(** (2): parentheses are balanced *)
Theorem c43_balanced e s : wf e -> (forall x, occurs x e -> no_parens x) ->
  e_to_string e = Ok s -> balanced s.
Proof. intros W N H. apply neutral_balanced. exact (raw_neutral e W N 0 s H). Qed.
Print Assumptions c43_balanced.

(** (3): readable expressions (no right operand of equal priority, no negative literals, names
    that look like names) with the same text are the same tree up to how numbers print *)
Theorem c43_readable e1 e2 : readable e1 -> readable e2 ->
  e_to_string e1 = e_to_string e2 -> same_text e1 e2.
Proof. apply readable_text_inj. Qed.
Print Assumptions c43_readable.

(** and without f64 literals they have the same value *)
Theorem c43_readable_value e1 e2 : wf e1 -> wf e2 -> readable e1 -> readable e2 ->
  no_floats e1 -> no_floats e2 -> e_to_string e1 = e_to_string e2 ->
  forall rho, eval rho e1 = eval rho e2.
Proof. intros W1 W2 R1 R2 F1 F2 H. apply same_text_value; auto. now apply readable_text_inj. Qed.
Print Assumptions c43_readable_value.

Definition ex_readable : expr :=
  e_sub (e_sub (e_var "x") (e_mul (e_add (e_var "y") (e_of_i64 12)) (e_sin (e_neg (e_var "x")))))
        (e_pow (e_var "x") (e_num sn_pi)).
Lemma plain_name_x : plain_name "x".
Proof.
  split; [repeat split; discriminate|]. split; [exists "x"%char, ""; repeat split; discriminate|].
  split; [|split; discriminate]. simpl. intros f F. decompose [or] F; subst; try reflexivity; contradiction.
Qed.
Lemma plain_name_y : plain_name "y".
Proof.
  split; [repeat split; discriminate|]. split; [exists "y"%char, ""; repeat split; discriminate|].
  split; [|split; discriminate]. simpl. intros f F. decompose [or] F; subst; try reflexivity; contradiction.
Qed.
Lemma nf_num n : (forall f, nval n = Real f -> ntag n = TPi \/ ntag n = TE) -> no_floats (e_num n).
Proof.
  intros H n' c f S V. inversion S; subst; [now apply (H f)|]. contradiction.
Qed.
Lemma nf_var x : no_floats (e_var x).
Proof. intros n' c f S V. inversion S; subst. contradiction. Qed.
Lemma nf_un t a : no_floats a -> no_floats (mk1 t a).
Proof.
  intros H n' c f S V. inversion S as [|? ? ? c' Hin Hs]; subst. destruct Hin as [<-|[]]. now apply (H n' c f).
Qed.
Lemma nf_bin t a b : no_floats a -> no_floats b -> no_floats (mk2 t a b).
Proof.
  intros H H' n' c f S V. inversion S as [|? ? ? c' Hin Hs]; subst.
  destruct Hin as [<-|[<-|[]]]; [now apply (H n' c f)|now apply (H' n' c f)].
Qed.
Example c43_example : readable ex_readable /\ wf ex_readable /\ no_floats ex_readable /\
  e_to_string ex_readable = Ok "x - (y + 12) * sin(-x) - x ^ pi" /\
  balanced "x - (y + 12) * sin(-x) - x ^ pi" /\
  ~ readable (e_sub (e_var "x") (e_sub (e_var "y") (e_var "z"))).
Proof.
  split; [|split; [|split; [|split; [reflexivity|split; [reflexivity|]]]]].
  - unfold ex_readable.
    assert (N12 : readable (e_of_i64 12)).
    { apply Rd_num. right; right. exists "1"%char, "2". split; [reflexivity|discriminate]. }
    assert (Npi : readable (e_num sn_pi)) by (apply Rd_num; left; reflexivity).
    assert (Vx : readable (e_var "x")) by (apply Rd_var, plain_name_x).
    assert (Vy : readable (e_var "y")) by (apply Rd_var, plain_name_y).
    apply Rd_bin; [reflexivity| | |intros op c [= <- <-]; discriminate].
    + apply Rd_bin; [reflexivity|assumption| |intros op c [= <- <-]; discriminate].
      apply Rd_bin; [reflexivity| | |intros op c [= <- <-]; discriminate].
      * apply Rd_bin; try assumption; try reflexivity. intros op c [=].
      * apply Rd_un; [reflexivity|]. apply Rd_un; [reflexivity|assumption].
    + apply Rd_bin; try assumption; try reflexivity. intros op c [=].
  - apply (PropsTree.c18_builders Debug). unfold ex_readable. api.
  - unfold ex_readable.
    repeat (apply nf_bin || apply nf_un || apply nf_var); apply nf_num; intros f Hf;
      try discriminate Hf. left. reflexivity.
  - intros R. inversion R as [| | |t a b Ht Ha Hb Hr E]; subst. apply (Hr _ _ eq_refl). destruct t; try discriminate E; reflexivity.
Qed.

(** ** C48: printed Taylor expansions *)

(** An expansion prints as the text of the polynomial sum of c_k * (x-a)^k over the nonzero
    coefficients, followed by the order term. *)
Theorem c48_text m e x at_ n t b :
  wf e -> wf at_ -> (0 <= n)%Z -> (n + 2 < two63)%Z ->
  taylor_expansion m e (e_var x) at_ n = Ok (ROk t) ->
  num_aggregate m (e_sub (e_var x) at_) = Ok b ->
  exists o, e_to_string (e_pow b (e_of_i64 (n + 1))) = Ok o /\
  match monomials b 0 (ex_coef t) with
  | [] => expansion_to_string m t = Ok ("O(" ++ o ++ ")")
  | p :: ps => exists s, e_to_string (sum_of p ps) = Ok s /\
      expansion_to_string m t = Ok (s ++ " + O(" ++ o ++ ")")
  end.
Proof. apply expansion_text. Qed.
Print Assumptions c48_text.

(** printing an expansion never panics in a release build; in a debug build only if the
    simplification of x - a overflows *)
Theorem c48_returns m e x at_ n t :
  wf e -> wf at_ -> (0 <= n)%Z -> (n + 2 < two63)%Z ->
  taylor_expansion m e (e_var x) at_ n = Ok (ROk t) ->
  (exists s, expansion_to_string m t = Ok s) \/
  (m <> Release /\ forall b, num_aggregate m (e_sub (e_var x) at_) <> Ok b).
Proof.
  intros We Wa Hn Hn2 H.
  destruct (num_aggregate m (e_sub (e_var x) at_)) as [b| | |] eqn:E.
  { left. destruct (c48_text m e x at_ n t b We Wa Hn Hn2 H E) as (o & _ & K).
    destruct (monomials b 0 (ex_coef t)); [eauto|]. destruct K as (s & _ & K). eauto. }
  all: right; split; [|discriminate]; intros ->;
    assert (W : wf (e_sub (e_var x) at_)) by (apply wf_mk2; [reflexivity|apply wf_var|assumption]);
    destruct (safe_release _ (agg_safe Release _ W)) as [z K]; rewrite K in E; discriminate E.
Qed.
Print Assumptions c48_returns.

Example c48_example : exists t,
  taylor_expansion Debug (e_sin (e_mul (e_var "y") (e_var "x"))) (e_var "x") e_zero 3 = Ok (ROk t) /\
  expansion_to_string Debug t = Ok "y / 1 * x ^ 1 + ((-y) * y * y) / 6 * x ^ 3 + O(x ^ 4)".
Proof. eexists. split; [vm_compute; reflexivity|vm_compute; reflexivity]. Qed.
