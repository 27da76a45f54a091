(** * PropsDebug2: C99, the [{:#?}] texts identify the value they print *)
From Coq Require Import ZArith NArith List String Ascii Bool Lia.
From Coq Require Import Floats.SpecFloat.
From Verif Require Import Base Float Rational SmartNum Ast Compute Limit Display Debug Debug2 Spec SpecDebug.
From Verif Require Import TreeProofs DispProofs PropsTree PropsDebug.
Import ListNotations.
Open Scope string_scope.

Definition pcn {A} (f : nat -> A -> string) (a : A) : Prop := forall n, pc (f n) a.

Ltac nrm H := unfold field_p, tuple_p, vec_p in H; rewrite ?sapp_assoc in H.
(** strip a common prefix of known pieces *)
Ltac eat H := repeat match type of H with
  | ?u ++ _ = ?u ++ _ => apply (app_inj u) in H
  end.

Section Texts.
Variable ff : f64 -> string.
Hypothesis Hff : float_text ff.
Hypothesis Hfc : forall f, free_of "," (ff f).

Lemma Zc z z' s s' : string_of_Z z ++ "," ++ s = string_of_Z z' ++ "," ++ s' -> z = z' /\ s = s'.
Proof. intros H. apply (Z_upto ",") in H; [exact H|reflexivity|discriminate]. Qed.
Ltac zc H := apply Zc in H; destruct H as [-> H].
Ltac by_ L H := apply L in H; destruct H as [-> H].
Ltac split_names H := try (cbn in H; discriminate H).

Lemma rat_pcn r : pcn rat_p r.
Proof.
  destruct r as [a b c]. intros n [a' b' c'] s s' H. unfold rat_p in H. cbn [rsign rnum rden] in H. nrm H.
  eat H. zc H. eat H. zc H. eat H. zc H. eat H. auto.
Qed.
Lemma val_pcn v : pcn (val_p ff) v.
Proof.
  intros n v' s s' H. destruct v as [z|r|f], v' as [z'|r'|f']; cbn [val_p] in H; nrm H; split_names H; eat H.
  - zc H. eat H. auto.
  - by_ rat_pcn H. eat H. auto.
  - apply (upto ",") in H; [|apply Hfc|apply Hfc]. destruct H as [E H]. apply Hff in E as ->. eat H. auto.
Qed.
Lemma sn_pcn x : pcn (sn_p ff) x.
Proof.
  destruct x as [v t]. intros n [v' t'] s s' H. unfold sn_p in H. cbn [nval ntag] in H. nrm H.
  eat H. by_ val_pcn H. eat H. by_ tag_pc H. eat H. auto.
Qed.
Lemma op_pcn o : pcn op_p o.
Proof.
  destruct o as [y p d]. intros n [y' p' d'] s s' H. unfold op_p in H. cbn [symbol priority descriptor] in H. nrm H.
  eat H. by_ str_pc H. eat H. zc H. eat H. by_ optype_pc H. eat H. auto.
Qed.
Lemma var_pcn v : pcn var_p v.
Proof. intros n v' s s' H. unfold var_p in H. nrm H. eat H. by_ str_pc H. eat H. auto. Qed.
Lemma od_pcn o : pcn (od_p ff) o.
Proof.
  intros n o' s s' H. destruct o as [x|v], o' as [x'|v']; cbn [od_p] in H; nrm H; split_names H; eat H.
  - by_ sn_pcn H. eat H. auto.
  - by_ var_pcn H. eat H. auto.
Qed.
Lemma node_pcn x : pcn (node_p ff) x.
Proof.
  intros n x' s s' H. destruct x as [x|v], x' as [x'|v']; cbn [node_p] in H; nrm H; split_names H; eat H.
  - by_ op_pcn H. eat H. auto.
  - by_ od_pcn H. eat H. auto.
Qed.

Lemma blanks_S n s : blanks (S n) ++ s = blanks n ++ "    " ++ s.
Proof.
  induction n as [|n IH]; [reflexivity|]. change (blanks (S (S n))) with ("    " ++ blanks (S n)).
  rewrite sapp_assoc, IH. change (blanks (S n)) with ("    " ++ blanks n). now rewrite !sapp_assoc.
Qed.
Lemma line_S n s : line (S n) ++ s = line n ++ "    " ++ s.
Proof. unfold line. cbn [append]. f_equal. apply blanks_S. Qed.

Lemma items_pc n c : Forall (pcn (e_p ff)) c -> forall c' s s',
  items_p n (map (e_p ff (S n)) c) ++ line n ++ "]" ++ s = items_p n (map (e_p ff (S n)) c') ++ line n ++ "]" ++ s' -> c = c' /\ s = s'.
Proof.
  induction 1 as [|a c P F IH]; intros [|b c'] s s' H; cbn [map items_p] in H; nrm H.
  - cbn [append] in H. apply (app_inj (line n)) in H. injection H as H. auto.
  - exfalso. cbn [append] in H. change (line n ++ String "]" s = line (S n) ++ e_p ff (S n) b ++ "," ++ items_p n (map (e_p ff (S n)) c') ++ line n ++ "]" ++ s') in H.
    rewrite line_S in H. apply (app_inj (line n)) in H. discriminate H.
  - exfalso. change (line (S n) ++ e_p ff (S n) a ++ "," ++ items_p n (map (e_p ff (S n)) c) ++ line n ++ "]" ++ s = line n ++ String "]" s') in H.
    rewrite line_S in H. apply (app_inj (line n)) in H. discriminate H.
  - apply (app_inj (line (S n))) in H. apply P in H as [-> H]. apply (app_inj ",") in H. destruct (IH _ _ _ H) as [-> ->]. auto.
Qed.
Lemma vec_pcn c : Forall (pcn (e_p ff)) c -> pcn (fun n c => vec_p n (map (e_p ff (S n)) c)) c.
Proof.
  intros F n c' s s' H. destruct c as [|a c], c' as [|b c']; cbn [map vec_p] in H.
  - split; [reflexivity|]. apply (app_inj "[]") in H. exact H.
  - cbn in H. discriminate H.
  - cbn in H. discriminate H.
  - rewrite !sapp_assoc in H. apply (app_inj "[") in H.
    change (items_p n (map (e_p ff (S n)) (a :: c)) ++ line n ++ "]" ++ s = items_p n (map (e_p ff (S n)) (b :: c')) ++ line n ++ "]" ++ s') in H.
    exact (items_pc n _ F _ _ _ H).
Qed.
Lemma e_pcn : forall e, pcn (e_p ff) e.
Proof.
  apply expr_ind'. intros r c F n [r' c'] s s' H. cbn [e_p] in H. unfold field_p in H. rewrite ?sapp_assoc in H.
  eat H. by_ node_pcn H. eat H. apply (vec_pcn c F (S n)) in H. destruct H as [-> H]. eat H. auto.
Qed.
Lemma es_pcn c : pcn (fun n c => vec_p n (map (e_p ff (S n)) c)) c.
Proof. apply vec_pcn. apply Forall_forall. intros e _. apply e_pcn. Qed.
Lemma l_pcn l : pcn (l_p ff) l.
Proof.
  intros n l' s s' H. destruct l, l'; cbn [l_p] in H; nrm H; split_names H;
    try (split; [reflexivity|]; cbn in H; repeat (injection H as H); exact H).
  eat H. by_ e_pcn H. eat H. auto.
Qed.
Lemma exp_pcn p : pcn (exp_p ff) p.
Proof.
  destruct p as [o f a c r]. intros n [o' f' a' c' r'] s s' H. unfold exp_p in H.
  cbn [ex_order ex_of ex_at ex_coef ex_residual] in H. unfold field_p in H. rewrite ?sapp_assoc in H.
  eat H. zc H. eat H. by_ e_pcn H. eat H. by_ e_pcn H. eat H. apply (es_pcn c (S n)) in H. destruct H as [-> H]. eat H. by_ e_pcn H. eat H. auto.
Qed.
Lemma te_pcn p : pcn (taylor_error_p ff) p.
Proof.
  destruct p as [e r]. intros n [e' r'] s s' H. unfold taylor_error_p in H. cbn [te_expr te_reason] in H. nrm H.
  eat H. by_ e_pcn H. eat H. by_ str_pc H. eat H. auto.
Qed.
Lemma de_pcn p : pcn (deriv_error_p ff) p.
Proof. destruct p as [e]. intros n [e'] s s' H. cbn [deriv_error_p] in H. nrm H. eat H. by_ e_pcn H. eat H. auto. Qed.
Lemma nl_pcn p : pcn no_limit_p p.
Proof. intros n. apply nl_pc. Qed.
Lemma res_pcn {A E} (da : nat -> A -> string) (de : nat -> E -> string) :
  (forall a, pcn da a) -> (forall e, pcn de e) -> forall r, pcn (result_p da de) r.
Proof.
  intros HA HE r n r' s s' H. destruct r as [a|e], r' as [a'|e']; cbn [result_p] in H; nrm H; split_names H; eat H.
  - by_ HA H. eat H. auto.
  - by_ HE H. eat H. auto.
Qed.
End Texts.

(** C99: the same for [{:#?}], with a text of floats that contains no comma either *)
Theorem c99_number_pretty ff (x y : snum) : float_text ff -> (forall f, free_of "," (ff f)) ->
  sn_p ff 0 x = sn_p ff 0 y -> x = y.
Proof. intros F G. apply pc_inj, sn_pcn; assumption. Qed.
Theorem c99_expression_pretty ff (a b : expr) : float_text ff -> (forall f, free_of "," (ff f)) ->
  e_p ff 0 a = e_p ff 0 b -> a = b.
Proof. intros F G. apply pc_inj, e_pcn; assumption. Qed.
Theorem c99_limit_pretty ff (a b : lres) : float_text ff -> (forall f, free_of "," (ff f)) ->
  result_p (l_p ff) no_limit_p 0 a = result_p (l_p ff) no_limit_p 0 b -> a = b.
Proof. intros F G. apply pc_inj, res_pcn; intros; [apply l_pcn; assumption|apply nl_pcn]. Qed.
Theorem c99_taylor_pretty ff (a b : result expansion taylor_error) : float_text ff -> (forall f, free_of "," (ff f)) ->
  result_p (exp_p ff) (taylor_error_p ff) 0 a = result_p (exp_p ff) (taylor_error_p ff) 0 b -> a = b.
Proof. intros F G. apply pc_inj, res_pcn; intros; [apply exp_pcn|apply te_pcn]; assumption. Qed.
Theorem c99_derivative_pretty ff (a b : result expr derivative_error) : float_text ff -> (forall f, free_of "," (ff f)) ->
  result_p (e_p ff) (deriv_error_p ff) 0 a = result_p (e_p ff) (deriv_error_p ff) 0 b -> a = b.
Proof. intros F G. apply pc_inj, res_pcn; intros; [apply e_pcn|apply de_pcn]; assumption. Qed.

Example c99_pretty_text : float_text exact_text /\ (forall f, free_of "," (exact_text f)) /\
  e_p exact_text 0 (e_neg (e_num sn_one)) =
"Expression {
    root: Operator(
        AstOperator {
            symbol: ""-"",
            priority: 1,
            descriptor: Neg,
        },
    ),
    child: [
        Expression {
            root: Operand(
                Num(
                    SmartNum {
                        value: Integer(
                            1,
                        ),
                        tag: One,
                    },
                ),
            ),
            child: [],
        },
    ],
}".
Proof.
  split; [exact c99_float_text|]. split; [|vm_compute; reflexivity].
  intros f. assert (Z1 : forall z, free_of "," (string_of_Z z)) by (intros; apply Z_free; [reflexivity|discriminate]).
  destruct f as [[]|[]| |s m e]; try (cbn; repeat split; discriminate).
  cbn [exact_text]. apply free_app; [destruct s; cbn; repeat split; discriminate|].
  apply free_app; [apply Z1|]. apply free_app; [cbn; repeat split; discriminate|apply Z1].
Qed.
Print Assumptions c99_number_pretty.
Print Assumptions c99_expression_pretty.
Print Assumptions c99_limit_pretty.
Print Assumptions c99_taylor_pretty.
Print Assumptions c99_derivative_pretty.
