(** * PropsDebug: C99, the derived [Debug] texts identify the value they print *)
From Coq Require Import ZArith NArith List String Ascii Bool Lia.
From Coq Require Import Decimal DecimalString DecimalZ DecimalFacts Floats.SpecFloat.
From Verif Require Import Base Float Rational SmartNum Ast Compute Limit Display Debug Spec SpecDebug.
From Verif Require Import TreeProofs DispProofs PropsTree.
Import ListNotations.
Open Scope string_scope.

(** the texts of [f] can be told apart even when something follows *)
Definition pc {A} (f : A -> string) (a : A) : Prop :=
  forall a' s s', f a ++ s = f a' ++ s' -> a = a' /\ s = s'.

Lemma app_inj u s s' : u ++ s = u ++ s' -> s = s'.
Proof. induction u as [|c u IH]; cbn; intros H; [exact H|injection H as H; exact (IH H)]. Qed.
Lemma sapp_assoc (a b c : string) : (a ++ b) ++ c = a ++ (b ++ c).
Proof. induction a as [|x a IH]; cbn; [reflexivity|f_equal; exact IH]. Qed.
Lemma sapp_nil (a : string) : a ++ "" = a.
Proof. induction a as [|x a IH]; cbn; [reflexivity|f_equal; exact IH]. Qed.

(** text up to a terminating character *)
Lemma upto c u u' s s' : free_of c u -> free_of c u' ->
  u ++ String c s = u' ++ String c s' -> u = u' /\ s = s'.
Proof.
  revert u'. induction u as [|d u IH]; intros [|d' u'] F F' H; cbn in *.
  - injection H as H. auto.
  - injection H as E H. destruct F'. congruence.
  - injection H as E H. destruct F. congruence.
  - injection H as E H. destruct F as [_ F], F' as [_ F'].
    destruct (IH u' F F' H) as [-> ->]. subst. auto.
Qed.

Lemma free_app c u v : free_of c u -> free_of c v -> free_of c (u ++ v).
Proof. induction u as [|d u IH]; cbn; [auto|]. intros [? ?] ?. split; auto. Qed.

Definition digit_char (c : ascii) : bool := ((48 <=? N_of_ascii c) && (N_of_ascii c <=? 57))%N.
Lemma uint_free c d : digit_char c = false -> free_of c (NilEmpty.string_of_uint d).
Proof.
  intros H. induction d; cbn [NilEmpty.string_of_uint free_of]; auto; split; auto; intros <-; discriminate H.
Qed.
Lemma Z_free c z : digit_char c = false -> c <> "-"%char -> free_of c (string_of_Z z).
Proof.
  intros H N. unfold string_of_Z.
  assert (U : forall d, free_of c (NilZero.string_of_uint d)).
  { intros d. unfold NilZero.string_of_uint. destruct d; try apply uint_free; auto.
    cbn. split; auto. intros <-; discriminate H. }
  destruct (Z.to_int z); cbn [NilZero.string_of_int]; [apply U|].
  cbn [free_of]. split; [congruence|apply U].
Qed.
Lemma Z_inj z z' : string_of_Z z = string_of_Z z' -> z = z'.
Proof.
  unfold string_of_Z. intros H.
  rewrite <- (DecimalZ.of_to z), <- (DecimalZ.of_to z'). f_equal.
  assert (P : forall z, Z.to_int z <> Pos Nil /\ Z.to_int z <> Neg Nil).
  { intros y. split; intros E; assert (Q := DecimalZ.of_to y); rewrite E in Q; cbn in Q; subst y; discriminate E. }
  assert (I : forall z, NilZero.int_of_string (NilZero.string_of_int (Z.to_int z)) = Some (Z.to_int z)).
  { intros y. apply NilZero.isi; apply P. }
  assert (E := I z). rewrite H, I in E. congruence.
Qed.
Lemma Z_upto c z z' s s' : digit_char c = false -> c <> "-"%char ->
  string_of_Z z ++ String c s = string_of_Z z' ++ String c s' -> z = z' /\ s = s'.
Proof.
  intros D N H. destruct (upto c _ _ s s' (Z_free c z D N) (Z_free c z' D N) H) as [E ->].
  split; [exact (Z_inj _ _ E)|reflexivity].
Qed.

(** ** Escaped strings *)
Fixpoint is_prefix (u v : string) : bool :=
  match u, v with
  | EmptyString, _ => true
  | String c u', String d v' => Ascii.eqb c d && is_prefix u' v'
  | _, EmptyString => false
  end.
Lemma prefix_of u v s s' : u ++ s = v ++ s' -> is_prefix u v = true \/ is_prefix v u = true.
Proof.
  revert v. induction u as [|c u IH]; intros [|d v] H; cbn; auto.
  cbn in H. injection H as -> H. rewrite Ascii.eqb_refl. cbn. exact (IH v H).
Qed.
Definition all_ascii : list ascii := map ascii_of_nat (seq 0 256).
Lemma all_ascii_in c : In c all_ascii.
Proof.
  unfold all_ascii. apply in_map_iff. exists (nat_of_ascii c). split; [apply ascii_nat_embedding|].
  apply in_seq. pose proof (nat_ascii_bounded c). lia.
Qed.
Lemma escape_check : forallb (fun c =>
    negb (is_prefix dquote (escape c)) && negb (is_prefix (escape c) dquote) &&
    forallb (fun d => Ascii.eqb c d || negb (is_prefix (escape c) (escape d))) all_ascii) all_ascii = true.
Proof. vm_compute. reflexivity. Qed.
Lemma escape_facts c :
  (forall s s', escape c ++ s <> dquote ++ s') /\
  (forall d, is_prefix (escape c) (escape d) = true -> c = d).
Proof.
  pose proof (proj1 (forallb_forall _ _) escape_check c (all_ascii_in c)) as H. cbv beta in H.
  apply andb_prop in H. destruct H as [H P]. apply andb_prop in H. destruct H as [H1 H2].
  split.
  - intros s s' E. destruct (prefix_of _ _ _ _ E) as [Q|Q]; rewrite Q in *; discriminate.
  - intros d Q. pose proof (proj1 (forallb_forall _ _) P d (all_ascii_in d)) as R. cbv beta in R.
    rewrite Q in R. cbn [negb] in R. rewrite orb_false_r in R. apply Ascii.eqb_eq in R. exact R.
Qed.
Lemma escape_pc c : pc escape c.
Proof.
  intros d s s' H. assert (E : c = d).
  { destruct (prefix_of _ _ _ _ H) as [Q|Q].
    - exact (proj2 (escape_facts c) d Q).
    - symmetry. exact (proj2 (escape_facts d) c Q). }
  subst d. split; [reflexivity|exact (app_inj _ _ _ H)].
Qed.
Lemma escape_all_pc u : forall u' s s', escape_all u ++ dquote ++ s = escape_all u' ++ dquote ++ s' -> u = u' /\ s = s'.
Proof.
  induction u as [|c u IH]; intros [|c' u'] s s' H; cbn [escape_all] in H; rewrite ?sapp_assoc in H.
  - cbn in H. injection H as H. auto.
  - exfalso. change ("" ++ dquote ++ s) with (dquote ++ s) in H. symmetry in H. exact (proj1 (escape_facts c') _ _ H).
  - exfalso. change ("" ++ dquote ++ s') with (dquote ++ s') in H. exact (proj1 (escape_facts c) _ _ H).
  - destruct (escape_pc c c' _ _ H) as [-> H']. destruct (IH _ _ _ H') as [-> ->]. auto.
Qed.
Lemma str_pc u : pc str_debug u.
Proof.
  intros u' s s' H. unfold str_debug in H. rewrite !sapp_assoc in H. apply app_inj in H.
  exact (escape_all_pc u u' s s' H).
Qed.

(** peel a literal prefix *)
Ltac peel H := rewrite ?sapp_assoc in H; cbn [append] in H; repeat (injection H as H).
Ltac app_norm H := rewrite ?sapp_assoc in H.

Section Texts.
Variable ff : f64 -> string.
Hypothesis Hff : float_text ff.

Lemma rat_pc r : pc rat_debug r.
Proof.
  destruct r as [a b c]. intros [a' b' c'] s s' H. unfold rat_debug in H. cbn [rsign rnum rden] in H.
  app_norm H. apply app_inj in H.
  change (", nominator: " ++ ?x) with (String "," (" nominator: " ++ x)) in H.
  apply Z_upto in H; [|reflexivity|discriminate]. destruct H as [-> H]. apply app_inj in H.
  apply (Z_upto ",") in H; [|reflexivity|discriminate]. destruct H as [-> H]. apply (app_inj " denominator: ") in H.
  apply (Z_upto " ") in H; [|reflexivity|discriminate]. destruct H as [-> H]. apply (app_inj "}") in H. auto.
Qed.
Lemma val_pc v : pc (val_debug ff) v.
Proof.
  intros v' s s' H. destruct v as [z|r|f], v' as [z'|r'|f']; cbn [val_debug] in H; app_norm H; try (cbn in H; discriminate H).
  - apply (app_inj "Integer(") in H. apply (Z_upto ")") in H; [|reflexivity|discriminate]. destruct H as [-> ->]. auto.
  - apply (app_inj "Rational(") in H. apply rat_pc in H. destruct H as [-> H]. apply (app_inj ")") in H. auto.
  - apply (app_inj "Real(") in H. apply (upto ")") in H; [|apply Hff|apply Hff]. destruct H as [H ->]. apply Hff in H. subst; auto.
Qed.
Lemma tag_pc t : pc tag_debug t.
Proof. intros t' s s' H. destruct t, t'; cbn in H; try discriminate H; (split; [reflexivity|]); repeat (injection H as H); exact H. Qed.
Lemma optype_pc t : pc optype_debug t.
Proof. intros t' s s' H. destruct t, t'; cbn in H; try discriminate H; (split; [reflexivity|]); repeat (injection H as H); exact H. Qed.
Lemma sn_pc x : pc (sn_debug ff) x.
Proof.
  destruct x as [v t]. intros [v' t'] s s' H. unfold sn_debug in H. cbn [nval ntag] in H. app_norm H.
  apply (app_inj "SmartNum { value: ") in H. apply val_pc in H. destruct H as [-> H].
  apply (app_inj ", tag: ") in H. apply tag_pc in H. destruct H as [-> H]. apply (app_inj " }") in H. auto.
Qed.
Lemma op_pc o : pc op_debug o.
Proof.
  destruct o as [y p d]. intros [y' p' d'] s s' H. unfold op_debug in H. cbn [symbol priority descriptor] in H. app_norm H.
  apply (app_inj "AstOperator { symbol: ") in H. apply str_pc in H. destruct H as [-> H].
  apply (app_inj ", priority: ") in H. apply (Z_upto ",") in H; [|reflexivity|discriminate]. destruct H as [-> H].
  apply (app_inj " descriptor: ") in H. apply optype_pc in H. destruct H as [-> H]. apply (app_inj " }") in H. auto.
Qed.
Lemma od_pc o : pc (od_debug ff) o.
Proof.
  intros o' s s' H. destruct o as [n|v], o' as [n'|v']; cbn [od_debug] in H; unfold var_debug in H; app_norm H; try (cbn in H; discriminate H).
  - apply (app_inj "Num(") in H. apply sn_pc in H. destruct H as [-> H]. apply (app_inj ")") in H. auto.
  - apply (app_inj "Variable(") in H. apply (app_inj "Variable { name: ") in H. apply str_pc in H. destruct H as [-> H]. apply (app_inj " }") in H. apply (app_inj ")") in H. auto.
Qed.
Lemma node_pc n : pc (node_debug ff) n.
Proof.
  intros n' s s' H. destruct n as [n|v], n' as [n'|v']; cbn [node_debug] in H; app_norm H; try (cbn in H; discriminate H).
  - apply (app_inj "Operator(") in H. apply op_pc in H. destruct H as [-> H]. apply (app_inj ")") in H. auto.
  - apply (app_inj "Operand(") in H. apply od_pc in H. destruct H as [-> H]. apply (app_inj ")") in H. auto.
Qed.

Lemma e_debug_head e : exists r, e_debug ff e = String "E" r.
Proof. destruct e. eexists. reflexivity. Qed.
Lemma commas_cons a l : l <> [] -> commas (a :: l) = a ++ ", " ++ commas l.
Proof. destruct l; [congruence|reflexivity]. Qed.
Lemma vec_pc c : Forall (pc (e_debug ff)) c -> pc (fun c => vec_debug (map (e_debug ff) c)) c.
Proof.
  intros F c' s s' H. unfold vec_debug in H. app_norm H. apply (app_inj "[") in H.
  revert c' H. induction F as [|a c P F IH]; intros c' H.
  - destruct c' as [|b c']; [apply (app_inj "]") in H; auto|]. exfalso.
    destruct (e_debug_head b) as (r & E). destruct c' as [|b' c'].
    + cbn [map commas] in H. rewrite E in H. cbn in H. discriminate H.
    + change (map (e_debug ff) (b :: b' :: c')) with (e_debug ff b :: map (e_debug ff) (b' :: c')) in H.
      rewrite commas_cons in H by discriminate. rewrite E in H. cbn in H. discriminate H.
  - destruct c' as [|b c'].
    + exfalso. destruct (e_debug_head a) as (r & E). destruct c as [|a' c].
      * cbn [map commas] in H. rewrite E in H. cbn in H. discriminate H.
      * change (map (e_debug ff) (a :: a' :: c)) with (e_debug ff a :: map (e_debug ff) (a' :: c)) in H.
        rewrite commas_cons in H by discriminate. rewrite E in H. cbn in H. discriminate H.
    + destruct c as [|a' c], c' as [|b' c'].
      * cbn [map commas] in H. apply P in H. destruct H as [-> H]. apply (app_inj "]") in H. auto.
      * exfalso. change (map (e_debug ff) (b :: b' :: c')) with (e_debug ff b :: map (e_debug ff) (b' :: c')) in H.
        rewrite commas_cons in H by discriminate. app_norm H. cbn [map commas] in H. apply P in H. destruct H as [_ H]. cbn in H. discriminate H.
      * exfalso. change (map (e_debug ff) (a :: a' :: c)) with (e_debug ff a :: map (e_debug ff) (a' :: c)) in H.
        rewrite commas_cons in H by discriminate. app_norm H. cbn [map commas] in H. apply P in H. destruct H as [_ H]. cbn in H. discriminate H.
      * change (map (e_debug ff) (b :: b' :: c')) with (e_debug ff b :: map (e_debug ff) (b' :: c')) in H.
        change (map (e_debug ff) (a :: a' :: c)) with (e_debug ff a :: map (e_debug ff) (a' :: c)) in H.
        rewrite !commas_cons in H by discriminate. app_norm H. apply P in H. destruct H as [-> H].
        apply (app_inj ", ") in H. destruct (IH _ H) as [E ->]. rewrite E. auto.
Qed.
Lemma e_pc : forall e, pc (e_debug ff) e.
Proof.
  apply expr_ind'. intros r c F [r' c'] s s' H. cbn [e_debug] in H. app_norm H.
  apply (app_inj "Expression { root: ") in H. apply node_pc in H. destruct H as [-> H].
  apply (app_inj ", child: ") in H. apply (vec_pc c F) in H. destruct H as [-> H]. apply (app_inj " }") in H. auto.
Qed.
Lemma es_pc c : pc (fun c => vec_debug (map (e_debug ff) c)) c.
Proof. apply vec_pc. apply Forall_forall. intros e _. apply e_pc. Qed.
Lemma l_pc l : pc (l_debug ff) l.
Proof.
  intros l' s s' H. destruct l, l'; cbn [l_debug] in H; app_norm H; try (cbn in H; discriminate H);
    try (split; [reflexivity|]; cbn in H; repeat (injection H as H); exact H).
  apply (app_inj "Normal(") in H. apply e_pc in H. destruct H as [-> H]. apply (app_inj ")") in H. auto.
Qed.
Lemma exp_pc p : pc (exp_debug ff) p.
Proof.
  destruct p as [o f a c r]. intros [o' f' a' c' r'] s s' H. unfold exp_debug in H.
  cbn [ex_order ex_of ex_at ex_coef ex_residual] in H. app_norm H.
  apply (app_inj "PartialExpansion { order: ") in H. apply (Z_upto ",") in H; [|reflexivity|discriminate]. destruct H as [-> H].
  apply (app_inj " of: ") in H. apply e_pc in H. destruct H as [-> H].
  apply (app_inj ", at: ") in H. apply e_pc in H. destruct H as [-> H].
  apply (app_inj ", coefficient: ") in H. apply es_pc in H. destruct H as [-> H].
  apply (app_inj ", residual: ") in H. apply e_pc in H. destruct H as [-> H]. apply (app_inj " }") in H. auto.
Qed.
Lemma te_pc p : pc (taylor_error_debug ff) p.
Proof.
  destruct p as [e r]. intros [e' r'] s s' H. unfold taylor_error_debug in H. cbn [te_expr te_reason] in H. app_norm H.
  apply (app_inj "TaylorExpansionError { err_expr: ") in H. apply e_pc in H. destruct H as [-> H].
  apply (app_inj ", reason: ") in H. apply str_pc in H. destruct H as [-> H]. apply (app_inj " }") in H. auto.
Qed.
Lemma de_pc p : pc (deriv_error_debug ff) p.
Proof.
  destruct p as [e]. intros [e'] s s' H. cbn [deriv_error_debug] in H. app_norm H.
  apply (app_inj "DerivativeError { err_src: ") in H. apply e_pc in H. destruct H as [-> H]. apply (app_inj " }") in H. auto.
Qed.
Lemma nl_pc p : pc no_limit_debug p.
Proof. intros [] s s' H. destruct p. apply (app_inj "NoValidLimitFound") in H. auto. Qed.
Lemma res_pc {A E} (da : A -> string) (de : E -> string) :
  (forall a, pc da a) -> (forall e, pc de e) -> forall r, pc (result_debug da de) r.
Proof.
  intros HA HE r r' s s' H. destruct r as [a|e], r' as [a'|e']; cbn [result_debug] in H; app_norm H; try (cbn in H; discriminate H).
  - apply (app_inj "Ok(") in H. apply HA in H. destruct H as [-> H]. apply (app_inj ")") in H. auto.
  - apply (app_inj "Err(") in H. apply HE in H. destruct H as [-> H]. apply (app_inj ")") in H. auto.
Qed.
Lemma pc_inj {A} (f : A -> string) (a b : A) : pc f a -> f a = f b -> a = b.
Proof. intros P H. apply (P b "" ""). rewrite H. reflexivity. Qed.
End Texts.

(** C99: two numbers, expressions, limits or expansions with the same [{:?}] text are the same
    (any tree, hand-built ones included) *)
Theorem c99_number ff (x y : snum) : float_text ff -> sn_debug ff x = sn_debug ff y -> x = y.
Proof. intros F. apply pc_inj, sn_pc, F. Qed.
Theorem c99_expression ff (a b : expr) : float_text ff -> e_debug ff a = e_debug ff b -> a = b.
Proof. intros F. apply pc_inj, e_pc, F. Qed.
Theorem c99_limit ff (a b : lres) : float_text ff ->
  result_debug (l_debug ff) no_limit_debug a = result_debug (l_debug ff) no_limit_debug b -> a = b.
Proof. intros F. apply pc_inj, res_pc; [apply l_pc, F|apply nl_pc]. Qed.
Theorem c99_taylor ff (a b : result expansion taylor_error) : float_text ff ->
  result_debug (exp_debug ff) (taylor_error_debug ff) a =
  result_debug (exp_debug ff) (taylor_error_debug ff) b -> a = b.
Proof. intros F. apply pc_inj, res_pc; [apply exp_pc, F|apply te_pc, F]. Qed.
Theorem c99_derivative ff (a b : result expr derivative_error) : float_text ff ->
  result_debug (e_debug ff) (deriv_error_debug ff) a =
  result_debug (e_debug ff) (deriv_error_debug ff) b -> a = b.
Proof. intros F. apply pc_inj, res_pc; [apply e_pc, F|apply de_pc, F]. Qed.

(** such a text of floats exists: sign, mantissa and exponent in decimal *)
Definition exact_text (f : f64) : string :=
  match f with
  | S754_nan => "NaN"
  | S754_infinity s => if s then "-inf" else "inf"
  | S754_zero s => if s then "-0.0" else "0.0"
  | S754_finite s m e => (if s then "x-" else "x+") ++ string_of_Z (Zpos m) ++ "p" ++ string_of_Z e
  end.
Example c99_float_text : float_text exact_text.
Proof.
  split.
  - intros f g H. destruct f as [[]|[]| |[] m e], g as [[]|[]| |[] m' e']; cbn in H; try discriminate H; try reflexivity.
    + injection H as H. apply (f_equal (fun s => s ++ " ")) in H. rewrite !sapp_assoc in H.
      apply (Z_upto "p" (Zpos m) (Zpos m')) in H; [|reflexivity|discriminate]. destruct H as [E H].
      apply (Z_upto " ") in H; [|reflexivity|discriminate]. destruct H as [-> _]. congruence.
    + injection H as H. apply (f_equal (fun s => s ++ " ")) in H. rewrite !sapp_assoc in H.
      apply (Z_upto "p" (Zpos m) (Zpos m')) in H; [|reflexivity|discriminate]. destruct H as [E H].
      apply (Z_upto " ") in H; [|reflexivity|discriminate]. destruct H as [-> _]. congruence.
  - intros f. assert (Z1 : forall z, free_of ")" (string_of_Z z)) by (intros; apply Z_free; [reflexivity|discriminate]).
    destruct f as [[]|[]| |s m e]; try (cbn; repeat split; discriminate).
    cbn [exact_text]. apply free_app; [destruct s; cbn; repeat split; discriminate|].
    apply free_app; [apply Z1|]. apply free_app; [cbn; repeat split; discriminate|apply Z1].
Qed.
(** the text of a tree, and two trees that [to_string] confuses (C43) but [{:?}] does not *)
Example c99_text : e_debug exact_text (e_add (e_var "x") (e_of_i64 2)) =
  "Expression { root: Operator(AstOperator { symbol: ""+"", priority: 2, descriptor: Add }), child: [Expression { root: Operand(Variable(Variable { name: ""x"" })), child: [] }, Expression { root: Operand(Num(SmartNum { value: Integer(2), tag: Nothing })), child: [] }] }".
Proof. reflexivity. Qed.
Example c99_display_confuses :
  let a := e_sub (e_var "x") (e_sub (e_var "y") (e_var "z")) in
  let b := e_sub (e_sub (e_var "x") (e_var "y")) (e_var "z") in
  e_to_string a = e_to_string b /\ e_debug exact_text a <> e_debug exact_text b.
Proof. split; [reflexivity|]. intros H. apply (c99_expression _ _ _ c99_float_text) in H. discriminate H. Qed.
Example c99_escapes : str_debug (String (ascii_of_N 9) (String (ascii_of_N 34) (String (ascii_of_N 27) "x'\")))
  = String (ascii_of_N 34) ("\t\" ++ String (ascii_of_N 34) "\u{1b}x'\\" ++ String (ascii_of_N 34) "").
Proof. reflexivity. Qed.

Print Assumptions c99_number.
Print Assumptions c99_expression.
Print Assumptions c99_limit.
Print Assumptions c99_taylor.
Print Assumptions c99_derivative.
