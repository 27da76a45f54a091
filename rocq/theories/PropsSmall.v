(** * PropsSmall: further small parts of the API (C01, C12, C43, C49) *)
From Coq Require Import ZArith QArith List String Bool Lia.
From Verif Require Import Base Float Rational SmartNum Ast Compute Limit Display Main Spec SpecTree.
From Verif Require Import BaseProofs RationalProofs NumProofs NumProofs2 TreeProofs PropsNum PropsTree.
Import ListNotations.
Open Scope Z_scope.

(** ** C01 without the assumption that the denominator is not 0 *)
(** reduce keeps the sign, stays in range, divides both parts by the same positive number, and
    n/0 stays a fraction with denominator 0 (1/0, or 0/0). *)
Theorem c01_reduce_any x : rat_typed x ->
  rat_typed (rat_reduce x) /\ rsign (rat_reduce x) = rsign x /\
  (exists d, 0 < d /\ rnum x = d * rnum (rat_reduce x) /\ rden x = d * rden (rat_reduce x)) /\
  (rden (rat_reduce x) = 0 <-> rden x = 0) /\ (rnum (rat_reduce x) = 0 <-> rnum x = 0) /\
  (rden x = 0 -> rnum (rat_reduce x) = if rnum x =? 0 then 0 else 1).
Proof.
  intros (Hs & Hn & Hd). pose proof Hn as Hn'. pose proof Hd as Hd'. apply in_u64_iff in Hn', Hd'.
  unfold rat_reduce, rat_typed, reduce_divisor, u64_div. cbn [rsign rnum rden].
  rewrite gcd_correct by lia.
  destruct (Z.eqb_spec (Z.gcd (rnum x) (rden x)) 0) as [E|E].
  - apply Z.gcd_eq_0 in E as (E1 & E2). rewrite E1, E2. repeat split; auto; try reflexivity.
    + exists 1. repeat split; lia.
  - pose proof (Z.gcd_nonneg (rnum x) (rden x)) as G. set (g := Z.gcd (rnum x) (rden x)) in *.
    destruct (Z.gcd_divide_l (rnum x) (rden x)) as (a & A). destruct (Z.gcd_divide_r (rnum x) (rden x)) as (b & B).
    fold g in A, B. assert (0 < g) as P by lia.
    assert (rnum x / g = a) as -> by (rewrite A; apply Z.div_mul; lia).
    assert (rden x / g = b) as -> by (rewrite B; apply Z.div_mul; lia).
    assert (0 <= a <= rnum x) by nia. assert (0 <= b <= rden x) by nia.
    split; [repeat split; auto; apply in_u64_iff; lia|]. split; [reflexivity|].
    split; [exists g; repeat split; lia|]. split; [nia|]. split; [nia|].
    intros Z. assert (rnum x <> 0) as N.
    { intros N. apply E. unfold g. rewrite N, Z. reflexivity. }
    destruct (Z.eqb_spec (rnum x) 0) as [?|_]; [contradiction|].
    assert (g = rnum x) as Eg by (unfold g; rewrite Z, Z.gcd_0_r, Z.abs_eq by lia; reflexivity). nia.
Qed.
Print Assumptions c01_reduce_any.

Example c01_any_witness : rat_reduce (mkRat (-1) 12 0) = mkRat (-1) 1 0 /\ rat_reduce (mkRat 1 0 0) = mkRat 1 0 0.
Proof. split; reflexivity. Qed.

(** ** C12 for the remaining operations on numbers *)
Theorem c12_comparisons x y a b eps : 
  builds_agree (fun m => sn_is_close m x y eps) /\ builds_agree (fun m => e_near m a b eps) /\
  builds_agree (fun m => sn_to_f64 m x) /\ builds_agree (fun m => sn_to_rational m x).
Proof.
  repeat match goal with |- _ /\ _ => split end; apply builds_agree_mono; intros m1 m2 Hm.
  - apply sn_is_close_mono, Hm.
  - apply e_near_mono, Hm.
  - apply sn_to_f64_mono, Hm.
  - apply sn_to_rational_mono, Hm.
Qed.
Print Assumptions c12_comparisons.

Theorem c12_constructors s n d v i :
  builds_agree (fun m => sn_new_rational m s n d) /\ builds_agree (fun m => sn_of_u64 m v) /\
  builds_agree (fun m => rat_of_i64 m i).
Proof.
  repeat match goal with |- _ /\ _ => split end; apply builds_agree_mono; intros m1 m2 Hm.
  - apply sn_new_rational_mono, Hm.
  - apply sn_of_u64_mono, Hm.
  - apply rat_of_i64_mono, Hm.
Qed.
Print Assumptions c12_constructors.

(** ** C49 the derived order of the operator kinds is a total order compatible with == *)
Theorem c49_operator_order a b c :
  (optype_cmp a b = Eq <-> optype_eqb a b = true) /\ (optype_cmp a b = Eq <-> a = b) /\
  optype_cmp b a = CompOpp (optype_cmp a b) /\
  (optype_ltb a b = true -> optype_ltb b c = true -> optype_ltb a c = true) /\
  (optype_leb a b = true <-> optype_ltb a b = true \/ a = b) /\
  (optype_ltb a b = true \/ a = b \/ optype_ltb b a = true).
Proof.
  split; [destruct a, b; split; (reflexivity || discriminate)|].
  split; [destruct a, b; split; (reflexivity || discriminate)|].
  split; [destruct a, b; reflexivity|].
  split; [|split; destruct a, b; cbn; intuition discriminate].
  unfold optype_ltb, optype_cmp.
  destruct (Nat.compare_spec (optype_index a) (optype_index b)); try discriminate.
  destruct (Nat.compare_spec (optype_index b) (optype_index c)); try discriminate.
  intros _ _. destruct (Nat.compare_spec (optype_index a) (optype_index c)); [lia|reflexivity|lia].
Qed.
Print Assumptions c49_operator_order.

(** the variants in increasing order, as declared *)
Example c49_order_witness :
  let l := [ONeg; OAdd; OSub; OMul; ODiv; OSin; OCos; OExp; OLn; OPow] in
  forall i j, (i < j < 10)%nat -> optype_ltb (nth i l ONeg) (nth j l ONeg) = true.
Proof.
  cbv zeta. intros i j H. do 10 (destruct i as [|i]; [do 10 (destruct j as [|j]; [try lia; reflexivity|]); lia|]). lia.
Qed.

(** ** C43 Display of a variable and of an operator are the texts used inside expressions *)
Theorem c43_variable_text x : e_to_string (e_var x) = Ok (variable_to_string x).
Proof. reflexivity. Qed.
Print Assumptions c43_variable_text.

(** one text inside another: in parentheses exactly if it is an operation of lower priority *)
Definition nested (outer : operator) (a : expr) (s : string) : string :=
  match root a with
  | Operator op => if (priority op <? priority outer)%Z then "(" ++ s ++ ")" else s
  | Operand _ => s
  end%string.

Lemma raw_nested op a : wf a -> (0 <= priority op)%Z ->
  to_string_raw (priority op) a = (let* s := e_to_string a in Ok (nested op a s))%res.
Proof.
  intros W P. unfold e_to_string, nested. destruct W as [n ? |x|t c L ? ]; cbn [to_string_raw root];
    [destruct (od_to_string (Num n)); reflexivity|reflexivity|].
  match goal with |- (bind ?k _) = _ => destruct k as [s| | |] end; cbn [bind]; try reflexivity.
  assert (priority (gen_op t) <? 0 = false)%Z as -> by (destruct t; reflexivity). cbn [bind].
  destruct (priority (gen_op t) <? priority op)%Z; reflexivity.
Qed.

(** Display of a binary operation: the texts of the operands around " operator "; of a unary
    one: the operator and the text of the operand *)
Theorem c43_operation_text a b : wf a -> wf b ->
  (forall t, arity t = 2%nat ->
     e_to_string (mk2 t a b) =
       (let* s := e_to_string a in let* r := e_to_string b in
        Ok (nested (gen_op t) a s ++ " " ++ operator_to_string (gen_op t) ++ " " ++ nested (gen_op t) b r))%string%res) /\
  (forall t, arity t = 1%nat ->
     e_to_string (mk1 t a) =
       (let* s := e_to_string a in Ok (operator_to_string (gen_op t) ++ nested (gen_op t) a s))%string%res).
Proof.
  intros Wa Wb. split; intros t A.
  - unfold e_to_string at 1, mk2. cbn [to_string_raw map].
    rewrite !raw_nested by (assumption || (destruct t; cbn; lia)).
    unfold operator_to_string. destruct (e_to_string a) as [s| | |]; cbn [bind]; try reflexivity.
    destruct (e_to_string b) as [r| | |]; cbn [bind]; try reflexivity.
    assert (priority (gen_op t) <? 0 = false)%Z as -> by (destruct t; reflexivity). reflexivity.
  - unfold e_to_string at 1, mk1. cbn [to_string_raw map].
    rewrite !raw_nested by (assumption || (destruct t; cbn; lia)).
    unfold operator_to_string. destruct (e_to_string a) as [s| | |]; cbn [bind]; try reflexivity.
    assert (priority (gen_op t) <? 0 = false)%Z as -> by (destruct t; reflexivity). reflexivity.
Qed.
Print Assumptions c43_operation_text.

Example c43_text_witness : e_to_string (e_mul (e_add (e_var "x") (e_of_i64 1)) (e_sin (e_var "y"))) = Ok "(x + 1) * siny"%string.
Proof. reflexivity. Qed.
