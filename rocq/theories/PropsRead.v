(** * PropsRead: printed texts read by the usual rules (C102) *)
From Coq Require Import ZArith List String Ascii Bool Lia.
From Coq Require Import Reals Qreals Lra QArith Floats.SpecFloat.
From Verif Require Import Base Float Rational SmartNum Ast Compute Limit Display.
From Verif Require Import Spec SpecTree SpecR SpecDisp SpecRead.
From Verif Require Import BaseProofs NumProofs TreeProofs TreeProofs2 RealProofs DispProofs DispParse DispEval PropsDisp SpecDebug PropsDebug.
Import List ListNotations.
Open Scope Z_scope.
Open Scope list_scope.

(** ** what is printed, as tokens *)
Definition wrapk (b : bool) (l : list token) : list token := if b then Open :: l ++ [Close] else l.
Definition is_neg (v : val) : bool :=
  match v with Integer z => z <? 0 | Real (S754_finite true _ _) | Real (S754_zero true) => true | _ => false end.
Definition opp_val (v : val) : val :=
  match v with Integer z => Integer (- z) | Real f => Real (SFopp f) | v => v end.
Definition opp_num (n : snum) : snum := mkNum (opp_val (nval n)) TNothing.
Definition neg_od (o : operand) : bool :=
  match o with Num n => tag_eqb (ntag n) TNothing && is_neg (nval n) | Var _ => false end.
Definition frac_od (o : operand) : option rat :=
  match o with
  | Num n => match ntag n, nval n with
             | TNothing, Rational r => if ((rsign r =? 1) || (rsign r =? -1)) && (0 <=? rnum r) && (0 <? rden r) then Some r else None
             | _, _ => None end
  | Var _ => None end.
Definition tk_od (o : operand) : list token :=
  match frac_od o with
  | Some r => if rsign r =? 1 then [Ratio (rnum r) (rden r)] else [Minus; Ratio (rnum r) (rden r)]
  | None => if neg_od o then match o with Num n => [Minus; Leaf (Num (opp_num n))] | Var _ => [] end else [Leaf o]
  end.
Fixpoint tk (u : Z) (e : expr) : list token :=
  match e with
  | Expr (Operand o) _ => tk_od o
  | Expr (Operator op) c =>
      let t := descriptor op in
      wrapk (binds t <? u)
        match map (tk (binds t)) c with
        | [a; b] => a ++ Sign t :: b
        | a :: _ => (match t with ONeg => Minus | _ => Fn t end) :: a
        | [] => []
        end
  end.
Lemma tk_mk1 u t a : tk u (mk1 t a) = wrapk (binds t <? u) ((match t with ONeg => Minus | _ => Fn t end) :: tk (binds t) a).
Proof. unfold mk1. cbn [tk map]. now rewrite descriptor_gen. Qed.
Lemma tk_mk2 u t a b : tk u (mk2 t a b) = wrapk (binds t <? u) (tk (binds t) a ++ Sign t :: tk (binds t) b).
Proof. unfold mk2. cbn [tk map]. now rewrite descriptor_gen. Qed.
Lemma tk_up u e : tk u e = wrapk (match top e with Some t => binds t <? u | None => false end) (tk 0 e).
Proof.
  destruct e as [[op|o] c]; [|reflexivity]. unfold top. cbn [root tk]. 
  assert (binds (descriptor op) <? 0 = false) as -> by (destruct (descriptor op); reflexivity). reflexivity.
Qed.

Lemma spell_app a b : spell (a ++ b) = (spell a ++ spell b)%string.
Proof. induction a as [|k a IH]; cbn [spell app]; [reflexivity|]. rewrite IH, app_assoc_s. reflexivity. Qed.
Lemma spell_wrapk b l : spell (wrapk b l) = parens b (spell l).
Proof. destruct b; [|reflexivity]. cbn [wrapk spell spell1 parens]. rewrite spell_app. reflexivity. Qed.
Lemma prio_binds t : priority (gen_op t) = binds t. Proof. destruct t; reflexivity. Qed.
Lemma sign_symbol t : symbol (gen_op t) = op_sign t. Proof. destruct t; reflexivity. Qed.

Lemma literal_neg e : negative_literal e -> exists n, e = e_num n /\ neg_od (Num n) = true.
Proof.
  destruct e as [[op|[n|x]] [|? ?]]; cbn [negative_literal]; try contradiction. intros [T H]. exists n. split; [reflexivity|].
  cbn [neg_od]. rewrite T. cbn [tag_eqb andb]. unfold is_neg. destruct (nval n) as [z|r|[[]|[]| |[] ? ?]]; try contradiction; try reflexivity.
  apply Z.ltb_lt. exact H.
Qed.
Lemma neg_literal n : neg_od (Num n) = true -> negative_literal (e_num n).
Proof.
  cbn [neg_od negative_literal e_num]. intros H. apply andb_prop in H as [T H].
  split; [destruct (ntag n); try discriminate T; reflexivity|]. unfold is_neg in H.
  destruct (nval n) as [z|r|[[]|[]| |[] ? ?]]; try discriminate H; try exact I. apply Z.ltb_lt. exact H.
Qed.
Lemma neg_text n : neg_od (Num n) = true -> sn_to_string n = Ok ("-" ++ leaf_text (Num (opp_num n)))%string.
Proof.
  cbn [neg_od]. intros H. apply andb_prop in H as [T H]. cbn [leaf_text]. unfold sn_to_string, opp_num. rewrite T. cbn [negb ntag nval tag_eqb].
  f_equal. unfold is_neg in H. destruct (nval n) as [z|r|[[]|[]| |[] m e]]; try discriminate H; cbn [opp_val SFopp negb val_to_string]; try reflexivity.
  apply string_of_neg. apply Z.ltb_lt. exact H.
Qed.
Lemma neg_value n : neg_od (Num n) = true -> num_R n = option_map Ropp (num_R (opp_num n)).
Proof.
  cbn [neg_od]. intros H. apply andb_prop in H as [T H]. unfold num_R, opp_num. cbn [ntag nval].
  replace (ntag n) with TNothing by (destruct (ntag n); try discriminate T; reflexivity). unfold is_neg in H.
  destruct (nval n) as [z|r|[[]|[]| |[] m e]]; try discriminate H; cbn [opp_val SFopp negb val_Q f_val option_map]; f_equal.
  - rewrite <- Q2R_opp. apply Qeq_eqR. rewrite <- inject_Z_opp, Z.opp_involutive. reflexivity.
  - rewrite <- Q2R_opp. apply Qeq_eqR. reflexivity.
  - rewrite <- Q2R_opp. apply Qeq_eqR. destruct e as [|p|p]; unfold Qeq; cbn -[Z.mul Z.pow Pos.pow]; lia.
Qed.
Lemma lit_frac e : fraction_literal e -> exists n r, e = e_num n /\ frac_od (Num n) = Some r.
Proof.
  destruct e as [[op|[n|x]] [|? ?]]; cbn [fraction_literal]; try contradiction. intros (T & r & V & Sg & P & Q). exists n, r.
  split; [reflexivity|]. cbn [frac_od]. rewrite T, V.
  replace ((rsign r =? 1) || (rsign r =? -1)) with true by (destruct Sg as [-> | ->]; reflexivity).
  rewrite (proj2 (Z.leb_le _ _) P), (proj2 (Z.ltb_lt _ _) Q). reflexivity.
Qed.
Lemma frac_inv n r : frac_od (Num n) = Some r -> ntag n = TNothing /\ nval n = Rational r /\ (rsign r = 1 \/ rsign r = -1) /\ 0 <= rnum r /\ 0 < rden r.
Proof.
  cbn [frac_od]. destruct (ntag n); try discriminate. destruct (nval n) as [|r'|]; try discriminate.
  destruct (((rsign r' =? 1) || (rsign r' =? -1)) && (0 <=? rnum r') && (0 <? rden r')) eqn:E; [|discriminate]. intros [= <-].
  apply andb_prop in E as [E C]. apply andb_prop in E as [A B]. apply orb_prop in A. rewrite !Z.eqb_eq in A.
  apply Z.leb_le in B. apply Z.ltb_lt in C. auto.
Qed.
Lemma frac_lit n r : frac_od (Num n) = Some r -> fraction_literal (e_num n).
Proof. intros H. apply frac_inv in H as (T & V & Sg & P & Q). split; [exact T|]. exists r. auto. Qed.
Lemma frac_text n r : frac_od (Num n) = Some r -> sn_to_string n = Ok (spell (tk_od (Num n))).
Proof.
  intros H. unfold tk_od. rewrite H. apply frac_inv in H as (T & V & Sg & P & Q).
  unfold sn_to_string. rewrite T, V. cbn [negb tag_eqb val_to_string]. unfold rat_to_string.
  destruct Sg as [-> | ->]; cbn [Z.eqb Pos.eqb spell spell1]; rewrite app_nil_s; reflexivity.
Qed.
Lemma neg_not_frac o : neg_od o = true -> frac_od o = None.
Proof.
  destruct o as [n|x]; [|reflexivity]. cbn [neg_od frac_od]. intros H. apply andb_prop in H as [_ H].
  destruct (ntag n); try reflexivity. unfold is_neg in H. destruct (nval n); try reflexivity. discriminate H.
Qed.
Lemma plain_not_frac o : plain_leaf o -> frac_od o = None.
Proof.
  destruct o as [n|x]; [|reflexivity]. intros (_ & N & _). cbn [frac_od]. destruct (ntag n); try reflexivity.
  destruct (nval n) as [|r|]; try reflexivity. destruct (N r). reflexivity.
Qed.
Lemma digit_first s : s <> ""%string -> all_digits s = true -> exists c t, s = String c t /\ digit_value c <> None.
Proof.
  destruct s as [|c t]; [congruence|]. intros _ H. exists c, t. split; [reflexivity|]. cbn in H. destruct (digit_value c); [discriminate|discriminate H].
Qed.
Lemma num_first z : 0 <= z -> exists c t, string_of_Z z = String c t /\ digit_value c <> None.
Proof. intros H. pose proof (numeral_nonneg z H) as N. apply digit_first; [exact (proj1 N)|exact (numeral_all _ _ N)]. Qed.
Lemma fix_first k : 0 <= k -> exists c t, fixed3 k = String c t /\ digit_value c <> None.
Proof.
  intros H. destruct (num_first (k / 1000)) as (c & t & E & D); [apply Z.div_pos; lia|]. unfold fixed3. rewrite E. cbn [append]. do 2 eexists. split; [reflexivity|exact D].
Qed.
Lemma neg_plain n : neg_od (Num n) = true -> plain_leaf (Num (opp_num n)).
Proof.
  cbn [neg_od]. intros H. apply andb_prop in H as [T H]. unfold opp_num. unfold is_neg in H.
  assert (forall s v, val_to_string v = s -> (exists c t, s = String c t /\ digit_value c <> None) -> plain_number (mkNum v TNothing)) as A.
  { intros s v E (c & t & -> & D). right; right. exists c, t. split; [|exact D]. unfold sn_to_string. cbn [ntag nval tag_eqb negb]. congruence. }
  destruct (nval n) as [z|r|[[]|[]| |[] m e]]; try discriminate H; cbn [opp_val SFopp negb]; (split; [|cbn [nval ntag]; repeat split; discriminate]);
    (eapply A; [reflexivity|]); cbn [val_to_string f_to_string].
  - apply num_first. apply Z.ltb_lt in H. lia.
  - apply fix_first. lia.
  - apply fix_first. destruct (thousandths_close m e) as (? & _ & P & _). exact P.
Qed.
Lemma plain_not_neg o : plain_leaf o -> neg_od o = false.
Proof.
  destruct o as [n|x]; [|reflexivity]. intros (P & _). destruct (neg_od (Num n)) eqn:E; [|reflexivity]. exfalso.
  destruct P as [P|[P|(c & t & P & D)]]; [cbn in E; rewrite P in E; discriminate E..|].
  rewrite (neg_text n E) in P. injection P as <- _. now apply D.
Qed.

Lemma wrote_leaf u o : to_string_raw u (Expr (Operand o) []) = Ok (spell (tk u (Expr (Operand o) []))).
Proof.
  cbn [tk]. destruct (frac_od o) as [r|] eqn:Fe.
  { destruct o as [n|x]; [|discriminate Fe]. exact (frac_text n r Fe). }
  unfold tk_od. rewrite Fe. destruct (neg_od o) eqn:Ne; cbn [spell spell1].
  { destruct o as [n|x]; [|discriminate Ne]. cbn [to_string_raw od_to_string spell spell1]. rewrite app_nil_s. exact (neg_text n Ne). }
  rewrite app_nil_s. destruct o as [n|x]; [|reflexivity].
  cbn [to_string_raw od_to_string leaf_text]. destruct (sn_to_string_ok n) as [s ->]. reflexivity.
Qed.
Lemma wrote_mk1 t a : arity t = 1%nat -> (forall u, to_string_raw u a = Ok (spell (tk u a))) ->
  forall u, to_string_raw u (mk1 t a) = Ok (spell (tk u (mk1 t a))).
Proof.
  intros A H u. rewrite (raw_mk1 u t a _ (H _)), tk_mk1, spell_wrapk, prio_binds, sign_symbol. f_equal. f_equal.
  destruct t; try discriminate A; reflexivity.
Qed.
Lemma wrote_mk2 t a b : (forall u, to_string_raw u a = Ok (spell (tk u a))) -> (forall u, to_string_raw u b = Ok (spell (tk u b))) ->
  forall u, to_string_raw u (mk2 t a b) = Ok (spell (tk u (mk2 t a b))).
Proof.
  intros Ha Hb u. rewrite (raw_mk2 u t a b _ _ (Ha _) (Hb _)), tk_mk2, spell_wrapk, prio_binds, sign_symbol, spell_app. f_equal. f_equal.
  cbn [spell spell1]. rewrite !app_assoc_s. reflexivity.
Qed.
Lemma wrote e : usual e -> forall u, to_string_raw u e = Ok (spell (tk u e)).
Proof.
  induction 1; try (apply wrote_mk2; assumption).
  - intros u. apply wrote_leaf.
  - intros u. destruct (literal_neg e H) as (n & -> & _). apply wrote_leaf.
  - intros u. destruct (lit_frac e H) as (n & r & -> & _). apply wrote_leaf.
  - apply wrote_mk1; [|assumption]. cbn in H. decompose [or] H; subst; try reflexivity. contradiction.
  - apply wrote_mk1; [reflexivity|assumption].
Qed.

(** ** reading them *)
Definition dk (u : Z) (e : expr) : list token := divisions (tk u e).
Lemma divisions_app a b : divisions (a ++ b) = divisions a ++ divisions b.
Proof. apply flat_map_app. Qed.
Lemma divisions_wrapk b l : divisions (wrapk b l) = wrapk b (divisions l).
Proof. destruct b; [|reflexivity]. cbn [wrapk]. change (Open :: l ++ [Close]) with ([Open] ++ l ++ [Close]). rewrite !divisions_app. reflexivity. Qed.
Lemma dk_mk1 u t a : dk u (mk1 t a) = wrapk (binds t <? u) ((match t with ONeg => Minus | _ => Fn t end) :: dk (binds t) a).
Proof. unfold dk. rewrite tk_mk1, divisions_wrapk. f_equal. destruct t; reflexivity. Qed.
Lemma dk_mk2 u t a b : dk u (mk2 t a b) = wrapk (binds t <? u) (dk (binds t) a ++ Sign t :: dk (binds t) b).
Proof. unfold dk. rewrite tk_mk2, divisions_wrapk, divisions_app. reflexivity. Qed.
Lemma dk_up u e : dk u e = wrapk (match top e with Some t => binds t <? u | None => false end) (dk 0 e).
Proof. unfold dk. rewrite tk_up, divisions_wrapk. reflexivity. Qed.

Definition nop (r : list token) (l : list optype) : Prop := ~ starts_with r l.
Definition eqv (a b : expr) : Prop := forall rho, eval rho a = eval rho b.
Fixpoint negn (n : nat) (e : expr) : expr := match n with O => e | S n => e_neg (negn n e) end.

Definition At (L : list token) (e : expr) : Prop := exists e', eqv e' e /\ forall r, atom (L ++ r) e' r.
Definition Pw (L : list token) (e : expr) : Prop := exists e', eqv e' e /\ forall r, nop r [OPow] -> factor (L ++ r) e' r.
Definition PrS (L : list token) (e : expr) : Prop := forall n, exists e', eqv e' (negn n e) /\
  forall r out r', nop r [OPow] -> more_product e' r out r' -> product (repeat Minus n ++ L ++ r) out r'.
Definition PrA (L : list token) (e : expr) : Prop := forall acc, exists e', eqv e' (e_mul acc e) /\
  forall r out r', nop r [OPow] -> more_product e' r out r' -> more_product acc (Sign OMul :: L ++ r) out r'.
Definition PrD (L : list token) (e : expr) : Prop := forall acc, exists e', eqv e' (e_div acc e) /\
  forall r out r', nop r [OPow] -> more_product e' r out r' -> more_product acc (Sign ODiv :: L ++ r) out r'.
Definition PrP (L : list token) (e : expr) : Prop := exists e', eqv e' e /\
  forall r, nop r [OMul; ODiv; OPow] -> product (L ++ r) e' r.
Definition SuS (L : list token) (e : expr) : Prop := exists e', eqv e' e /\
  forall r out r', nop r [OMul; ODiv; OPow] -> more_sum e' r out r' -> sum (L ++ r) out r'.
Definition SuA (L : list token) (e : expr) : Prop := forall acc, exists e', eqv e' (e_add acc e) /\
  forall r out r', nop r [OMul; ODiv; OPow] -> more_sum e' r out r' -> more_sum acc (Sign OAdd :: L ++ r) out r'.
Definition SuB (L : list token) (e : expr) : Prop := forall acc, exists e', eqv e' (e_sub acc e) /\
  forall r out r', nop r [OMul; ODiv; OPow] -> more_sum e' r out r' -> more_sum acc (Sign OSub :: L ++ r) out r'.

Lemma nop_sub r l l' : nop r l -> (forall t, In t l' -> In t l) -> nop r l'.
Proof. intros N H (t & q & -> & I). apply N. exists t, q. auto. Qed.
Lemma nop_sign t r l : ~ In t l -> nop (Sign t :: r) l.
Proof. intros N (t' & q & [= <- <-] & I). contradiction. Qed.
Lemma nop_close r l : nop (Close :: r) l.
Proof. intros (t & q & E & _). discriminate E. Qed.
Lemma nop_nil l : nop [] l.
Proof. intros (t & q & E & _). discriminate E. Qed.
Ltac notin := let I := fresh in intros I; cbn in I; intuition discriminate.
Ltac isin := let I := fresh in intros ? I; cbn in I |- *; intuition.

Lemma eqv_mk1 t a a' : eqv a' a -> eqv (mk1 t a') (mk1 t a).
Proof. intros H rho. rewrite !eval_mk1, H. reflexivity. Qed.
Lemma eqv_mk2 t a a' b b' : eqv a' a -> eqv b' b -> eqv (mk2 t a' b') (mk2 t a b).
Proof. intros H K rho. rewrite !eval_mk2, H, K. reflexivity. Qed.
Lemma eqv_trans a b c : eqv a b -> eqv b c -> eqv a c.
Proof. intros H K rho. rewrite H. apply K. Qed.
Lemma eqv_refl a : eqv a a. Proof. intros rho. reflexivity. Qed.
Lemma eqv_negn n a a' : eqv a' a -> eqv (negn n a') (negn n a).
Proof. intros H. induction n; [exact H|]. apply (eqv_mk1 ONeg). assumption. Qed.
Lemma negn_neg n a : negn n (e_neg a) = negn (S n) a.
Proof. induction n as [|n IH]; [reflexivity|]. cbn [negn] in *. rewrite IH. reflexivity. Qed.

Ltac evs := intros rho; unfold e_neg, e_add, e_sub, e_mul, e_div;
  repeat first [rewrite eval_mk2|rewrite eval_mk1]; repeat match goal with |- context [eval rho ?x] => destruct (eval rho x) end;
  cbn [obind ev1 ev2]; try reflexivity.
Lemma neg_mul a b : eqv (e_mul (e_neg a) b) (e_neg (e_mul a b)).
Proof. evs; f_equal; ring. Qed.
Lemma neg_div a b : eqv (e_div (e_neg a) b) (e_neg (e_div a b)).
Proof. evs. destruct (Req_EM_T r0 0); cbn [obind ev1]; [reflexivity|]. f_equal. field. assumption. Qed.
Lemma negn_mul n a b : eqv (e_mul (negn n a) b) (negn n (e_mul a b)).
Proof.
  induction n as [|n IH]; [apply eqv_refl|]. cbn [negn]. apply (eqv_trans _ _ _ (neg_mul _ _)). apply (eqv_mk1 ONeg). exact IH.
Qed.
Lemma negn_div n a b : eqv (e_div (negn n a) b) (negn n (e_div a b)).
Proof.
  induction n as [|n IH]; [apply eqv_refl|]. cbn [negn]. apply (eqv_trans _ _ _ (neg_div _ _)). apply (eqv_mk1 ONeg). exact IH.
Qed.
Lemma mul_mul a b c : eqv (e_mul (e_mul a b) c) (e_mul a (e_mul b c)).
Proof. evs; f_equal; ring. Qed.
Lemma mul_div a b c : eqv (e_div (e_mul a b) c) (e_mul a (e_div b c)).
Proof. evs; destruct (Req_EM_T _ 0); cbn [obind ev2]; try reflexivity. f_equal. field. assumption. Qed.
Lemma add_add a b c : eqv (e_add (e_add a b) c) (e_add a (e_add b c)).
Proof. evs; f_equal; ring. Qed.
Lemma add_sub a b c : eqv (e_sub (e_add a b) c) (e_add a (e_sub b c)).
Proof. evs; f_equal; ring. Qed.

(** from atoms to sums *)
Lemma At_Pw L e : At L e -> Pw L e.
Proof. intros (e' & E & H). exists e'. split; [exact E|]. intros r N. apply F_atom; [apply H|exact N]. Qed.
Lemma Pw_neg L e' r n : factor (L ++ r) e' r -> factor (repeat Minus n ++ L ++ r) (negn n e') r.
Proof. intros H. induction n as [|n IH]; [exact H|]. cbn [repeat app negn]. apply F_minus. exact IH. Qed.
Lemma Pw_PrS L e : Pw L e -> PrS L e.
Proof.
  intros (e' & E & H) n. exists (negn n e'). split; [apply eqv_negn; exact E|]. intros r out r' N M.
  apply (P_product _ _ _ _ _ (Pw_neg L e' r n (H r N)) M).
Qed.
Lemma Pw_PrA L e : Pw L e -> PrA L e.
Proof.
  intros (e' & E & H) acc. exists (e_mul acc e'). split; [apply eqv_mk2; [apply eqv_refl|exact E]|]. intros r out r' N M.
  exact (P_mul _ _ _ _ _ _ (H r N) M).
Qed.
Lemma Pw_PrD L e : Pw L e -> PrD L e.
Proof.
  intros (e' & E & H) acc. exists (e_div acc e'). split; [apply eqv_mk2; [apply eqv_refl|exact E]|]. intros r out r' N M.
  exact (P_div _ _ _ _ _ _ (H r N) M).
Qed.
Lemma PrS_PrP L e : PrS L e -> PrP L e.
Proof.
  intros H. destruct (H O) as (e' & E & K). exists e'. split; [exact E|]. intros r N.
  apply (K r e' r); [apply (nop_sub _ _ _ N); isin|]. apply P_end. apply (nop_sub _ _ _ N). isin.
Qed.
Lemma PrP_SuS L e : PrP L e -> SuS L e.
Proof. intros (e' & E & K). exists e'. split; [exact E|]. intros r out r' N M. exact (S_sum _ _ _ _ _ (K r N) M). Qed.
Lemma PrP_SuA L e : PrP L e -> SuA L e.
Proof.
  intros (e' & E & K) acc. exists (e_add acc e'). split; [apply eqv_mk2; [apply eqv_refl|exact E]|]. intros r out r' N M.
  exact (S_add _ _ _ _ _ _ (K r N) M).
Qed.
Lemma PrP_SuB L e : PrP L e -> SuB L e.
Proof.
  intros (e' & E & K) acc. exists (e_sub acc e'). split; [apply eqv_mk2; [apply eqv_refl|exact E]|]. intros r out r' N M.
  exact (S_sub _ _ _ _ _ _ (K r N) M).
Qed.
Lemma SuS_At L e : SuS L e -> At (Open :: L ++ [Close]) e.
Proof.
  intros (e' & E & K). exists e'. split; [exact E|]. intros r. cbn [app]. apply A_paren. rewrite <- app_assoc. cbn [app].
  apply (K (Close :: r) e' (Close :: r)); [apply nop_close|]. apply S_end. apply nop_close.
Qed.

(** ** operators *)
Lemma mul_PrS La Lb a b : PrS La a -> PrA Lb b -> PrS (La ++ Sign OMul :: Lb) (e_mul a b).
Proof.
  intros Ha Hb n. destruct (Ha n) as (e1 & E1 & K1). destruct (Hb e1) as (e2 & E2 & K2). exists e2. split.
  - apply (eqv_trans _ _ _ E2). apply (eqv_trans _ (e_mul (negn n a) b)); [apply eqv_mk2; [exact E1|apply eqv_refl]|apply negn_mul].
  - intros r out r' N M. rewrite <- app_assoc. cbn [app]. apply (K1 (Sign OMul :: Lb ++ r) out r'); [apply nop_sign; notin|].
    exact (K2 r out r' N M).
Qed.
Lemma mul_PrA La Lb a b : PrA La a -> PrA Lb b -> PrA (La ++ Sign OMul :: Lb) (e_mul a b).
Proof.
  intros Ha Hb acc. destruct (Ha acc) as (e1 & E1 & K1). destruct (Hb e1) as (e2 & E2 & K2). exists e2. split.
  - apply (eqv_trans _ _ _ E2). apply (eqv_trans _ (e_mul (e_mul acc a) b)); [apply eqv_mk2; [exact E1|apply eqv_refl]|apply mul_mul].
  - intros r out r' N M. rewrite <- app_assoc. cbn [app]. apply (K1 (Sign OMul :: Lb ++ r) out r'); [apply nop_sign; notin|].
    exact (K2 r out r' N M).
Qed.
Lemma div_PrS La Lb a b : PrS La a -> PrD Lb b -> PrS (La ++ Sign ODiv :: Lb) (e_div a b).
Proof.
  intros Ha Hb n. destruct (Ha n) as (e1 & E1 & K1). destruct (Hb e1) as (e2 & E2 & K2). exists e2. split.
  - apply (eqv_trans _ _ _ E2). apply (eqv_trans _ (e_div (negn n a) b)); [apply eqv_mk2; [exact E1|apply eqv_refl]|apply negn_div].
  - intros r out r' N M. rewrite <- app_assoc. cbn [app]. apply (K1 (Sign ODiv :: Lb ++ r) out r'); [apply nop_sign; notin|].
    exact (K2 r out r' N M).
Qed.
Lemma div_PrA La Lb a b : PrA La a -> PrD Lb b -> PrA (La ++ Sign ODiv :: Lb) (e_div a b).
Proof.
  intros Ha Hb acc. destruct (Ha acc) as (e1 & E1 & K1). destruct (Hb e1) as (e2 & E2 & K2). exists e2. split.
  - apply (eqv_trans _ _ _ E2). apply (eqv_trans _ (e_div (e_mul acc a) b)); [apply eqv_mk2; [exact E1|apply eqv_refl]|apply mul_div].
  - intros r out r' N M. rewrite <- app_assoc. cbn [app]. apply (K1 (Sign ODiv :: Lb ++ r) out r'); [apply nop_sign; notin|].
    exact (K2 r out r' N M).
Qed.
Lemma pow_Pw La Lb a b : At La a -> Pw Lb b -> Pw (La ++ Sign OPow :: Lb) (e_pow a b).
Proof.
  intros (a' & Ea & Ka) (b' & Eb & Kb). exists (e_pow a' b'). split; [apply eqv_mk2; assumption|]. intros r N.
  rewrite <- app_assoc. cbn [app]. exact (F_power _ _ _ _ _ (Ka _) (Kb r N)).
Qed.
Lemma neg_PrS L e : PrS L e -> PrS (Minus :: L) (e_neg e).
Proof.
  intros H n. destruct (H (S n)) as (e' & E & K). exists e'. rewrite negn_neg. split; [exact E|]. intros r out r' N M.
  specialize (K r out r' N M). assert (repeat Minus (S n) ++ L ++ r = repeat Minus n ++ (Minus :: L) ++ r) as <-; [|exact K].
  clear. induction n as [|n IH]; [reflexivity|]. cbn [repeat app] in *. f_equal. exact IH.
Qed.
Lemma add_SuS La Lb a b : SuS La a -> SuA Lb b -> SuS (La ++ Sign OAdd :: Lb) (e_add a b).
Proof.
  intros (e1 & E1 & K1) Hb. destruct (Hb e1) as (e2 & E2 & K2). exists e2. split.
  - apply (eqv_trans _ _ _ E2). apply eqv_mk2; [exact E1|apply eqv_refl].
  - intros r out r' N M. rewrite <- app_assoc. cbn [app]. apply (K1 (Sign OAdd :: Lb ++ r) out r'); [apply nop_sign; notin|].
    exact (K2 r out r' N M).
Qed.
Lemma add_SuA La Lb a b : SuA La a -> SuA Lb b -> SuA (La ++ Sign OAdd :: Lb) (e_add a b).
Proof.
  intros Ha Hb acc. destruct (Ha acc) as (e1 & E1 & K1). destruct (Hb e1) as (e2 & E2 & K2). exists e2. split.
  - apply (eqv_trans _ _ _ E2). apply (eqv_trans _ (e_add (e_add acc a) b)); [apply eqv_mk2; [exact E1|apply eqv_refl]|apply add_add].
  - intros r out r' N M. rewrite <- app_assoc. cbn [app]. apply (K1 (Sign OAdd :: Lb ++ r) out r'); [apply nop_sign; notin|].
    exact (K2 r out r' N M).
Qed.
Lemma sub_SuS La Lb a b : SuS La a -> SuB Lb b -> SuS (La ++ Sign OSub :: Lb) (e_sub a b).
Proof.
  intros (e1 & E1 & K1) Hb. destruct (Hb e1) as (e2 & E2 & K2). exists e2. split.
  - apply (eqv_trans _ _ _ E2). apply eqv_mk2; [exact E1|apply eqv_refl].
  - intros r out r' N M. rewrite <- app_assoc. cbn [app]. apply (K1 (Sign OSub :: Lb ++ r) out r'); [apply nop_sign; notin|].
    exact (K2 r out r' N M).
Qed.
Lemma sub_SuA La Lb a b : SuA La a -> SuB Lb b -> SuA (La ++ Sign OSub :: Lb) (e_sub a b).
Proof.
  intros Ha Hb acc. destruct (Ha acc) as (e1 & E1 & K1). destruct (Hb e1) as (e2 & E2 & K2). exists e2. split.
  - apply (eqv_trans _ _ _ E2). apply (eqv_trans _ (e_sub (e_add acc a) b)); [apply eqv_mk2; [exact E1|apply eqv_refl]|apply add_sub].
  - intros r out r' N M. rewrite <- app_assoc. cbn [app]. apply (K1 (Sign OSub :: Lb ++ r) out r'); [apply nop_sign; notin|].
    exact (K2 r out r' N M).
Qed.
Lemma fn_At t L e : In t [OSin; OCos; OExp; OLn] -> At L e -> At (Fn t :: L) (mk1 t e).
Proof.
  intros I (e' & E & K). exists (mk1 t e'). split; [apply eqv_mk1; exact E|]. intros r. apply A_fn; [exact I|apply K].
Qed.

(** ** all of them *)
Record K (e : expr) : Prop := {
  k_sus : SuS (dk 0 e) e;
  k_sua : ~ top_in e [ONeg] -> SuA (dk 0 e) e;
  k_prs : ~ top_in e [OAdd; OSub] -> PrS (dk 0 e) e;
  k_pra : ~ top_in e [ONeg; OAdd; OSub] -> PrA (dk 0 e) e;
  k_pw : ~ top_in e [ONeg; OAdd; OSub; OMul; ODiv] -> ~ fraction_literal e -> Pw (dk 0 e) e;
  k_at : ~ top_in e [ONeg; OAdd; OSub; OMul; ODiv; OPow] -> ~ negative_literal e -> ~ fraction_literal e -> At (dk 0 e) e
}.
Lemma At_K e : At (dk 0 e) e -> K e.
Proof.
  intros H. pose proof (At_Pw _ _ H) as P. pose proof (Pw_PrS _ _ P) as S. pose proof (PrS_PrP _ _ S) as Q.
  constructor; intros; auto using PrP_SuS, PrP_SuA, Pw_PrA.
Qed.

Lemma op_cases u e : K e -> At (dk u e) e \/ (dk u e = dk 0 e /\ forall t, top e = Some t -> u <= binds t).
Proof.
  intros H. rewrite dk_up. destruct (top e) as [t|] eqn:E; [|right; split; [reflexivity|discriminate]].
  destruct (binds t <? u) eqn:B; cbn [wrapk].
  - left. apply SuS_At, (k_sus _ H).
  - right. split; [reflexivity|]. intros t' [= <-]. apply Z.ltb_ge in B. exact B.
Qed.
Ltac nott H := let t := fresh "t" in let E := fresh "E" in let I := fresh "I" in
  intros (t & E & I); pose proof (H t E);
  cbn in I; decompose [or] I; subst; cbn [binds] in *;
  try lia; try contradiction;
  match goal with N : ~ top_in _ _ |- _ => apply N; eexists; split; [exact E|cbn; auto] end.
Lemma op_At5 e : K e -> ~ negative_literal e -> ~ fraction_literal e -> At (dk 5 e) e.
Proof. intros H N F. destruct (op_cases 5 e H) as [A|[-> B]]; [exact A|]. apply (k_at _ H); [|exact N|exact F]. nott B. Qed.
Lemma op_At4 e : K e -> ~ top_in e [ODiv; OPow] -> ~ negative_literal e -> ~ fraction_literal e -> At (dk 4 e) e.
Proof. intros H N N' F. destruct (op_cases 4 e H) as [A|[-> B]]; [exact A|]. apply (k_at _ H); [|exact N'|exact F]. nott B. Qed.
Lemma op_Pw4 e : K e -> ~ top_in e [ODiv] -> ~ fraction_literal e -> Pw (dk 4 e) e.
Proof. intros H N F. destruct (op_cases 4 e H) as [A|[-> B]]; [apply At_Pw; exact A|]. apply (k_pw _ H); [|exact F]. nott B. Qed.
Lemma op_PrS u e : 3 <= u -> K e -> PrS (dk u e) e.
Proof. intros L H. destruct (op_cases u e H) as [A|[-> B]]; [apply Pw_PrS, At_Pw; exact A|]. apply (k_prs _ H). nott B. Qed.
Lemma op_PrA u e : 3 <= u -> K e -> PrA (dk u e) e.
Proof. intros L H. destruct (op_cases u e H) as [A|[-> B]]; [apply Pw_PrA, At_Pw; exact A|]. apply (k_pra _ H). nott B. Qed.
Lemma op_SuS2 e : K e -> SuS (dk 2 e) e.
Proof.
  intros H. destruct (op_cases 2 e H) as [A|[-> B]]; [apply PrP_SuS, PrS_PrP, Pw_PrS, At_Pw; exact A|]. apply (k_sus _ H).
Qed.
Lemma op_SuA2 e : K e -> SuA (dk 2 e) e.
Proof.
  intros H. destruct (op_cases 2 e H) as [A|[-> B]]; [apply PrP_SuA, PrS_PrP, Pw_PrS, At_Pw; exact A|]. apply (k_sua _ H). nott B.
Qed.
Lemma op_SuB2 e : K e -> ~ top_in e [OAdd; OSub] -> SuB (dk 2 e) e.
Proof.
  intros H N. apply PrP_SuB, PrS_PrP. destruct (op_cases 2 e H) as [A|[-> B]]; [apply Pw_PrS, At_Pw; exact A|]. apply (k_prs _ H). exact N.
Qed.

Lemma top_mk1 t a : top (mk1 t a) = Some t. Proof. unfold top. cbn [root mk1]. rewrite descriptor_gen. reflexivity. Qed.
Lemma top_mk2 t a b : top (mk2 t a b) = Some t. Proof. unfold top. cbn [root mk2]. rewrite descriptor_gen. reflexivity. Qed.
Ltac absurd_top := match goal with N : ~ top_in ?e _ |- _ => exfalso; apply N; eexists; split; [first [apply top_mk1|apply top_mk2]|cbn; tauto] end.

Lemma dk_plain o : plain_leaf o -> dk 0 (Expr (Operand o) []) = [Leaf o].
Proof. intros P. unfold dk. cbn [tk]. unfold tk_od. rewrite (plain_not_frac o P), (plain_not_neg o P). reflexivity. Qed.
Lemma int_plain z : 0 <= z -> plain_leaf (int z).
Proof.
  intros H. split; [|repeat split; discriminate]. right; right. destruct (num_first z H) as (c & t & E & D). exists c, t.
  split; [|exact D]. unfold sn_to_string. cbn. rewrite E. reflexivity.
Qed.
Lemma int_At z : 0 <= z -> At [Leaf (int z)] (Expr (Operand (int z)) []).
Proof. intros H. eexists. split; [apply eqv_refl|]. intros r. apply A_leaf, int_plain, H. Qed.
Lemma PrS_eqv L e e' : eqv e' e -> PrS L e' -> PrS L e.
Proof. intros E H n. destruct (H n) as (e2 & E2 & Q). exists e2. split; [|exact Q]. apply (eqv_trans _ _ _ E2), eqv_negn, E. Qed.
Lemma PrA_eqv L e e' : eqv e' e -> PrA L e' -> PrA L e.
Proof. intros E H n. destruct (H n) as (e2 & E2 & Q). exists e2. split; [|exact Q]. apply (eqv_trans _ _ _ E2), eqv_mk2; [apply eqv_refl|exact E]. Qed.
Lemma Q2R_frac a b : 0 < b -> Q2R (a # Z.to_pos b) = (IZR a / IZR b)%R.
Proof. intros H. unfold Q2R. cbn [Qnum Qden]. rewrite Z2Pos.id by exact H. reflexivity. Qed.
Lemma num_int z : num_R (mkNum (Integer z) TNothing) = Some (IZR z).
Proof. unfold num_R. cbn [ntag nval val_Q option_map]. f_equal. unfold Q2R, inject_Z. cbn [Qnum Qden]. field. Qed.
Lemma frac_K n r : frac_od (Num n) = Some r -> PrS (dk 0 (e_num n)) (e_num n) /\ PrA (dk 0 (e_num n)) (e_num n).
Proof.
  intros Hr. assert (dk 0 (e_num n) = divisions (tk_od (Num n))) as -> by reflexivity. unfold tk_od. rewrite Hr.
  apply frac_inv in Hr as (T & V & Sg & P & Q).
  set (p := Expr (Operand (int (rnum r))) []). set (q := Expr (Operand (int (rden r))) []).
  assert (IZR (rden r) <> 0%R) as Nz by (apply not_0_IZR; lia).
  assert (num_R n = Some (IZR (rsign r * rnum r) / IZR (rden r))%R) as Vn.
  { unfold num_R. rewrite T, V. cbn [val_Q]. replace (rden r =? 0) with false by (symmetry; apply Z.eqb_neq; lia).
    cbn [option_map]. f_equal. apply Q2R_frac. exact Q. }
  assert (Pw [Leaf (int (rden r))] q) as Hq by (apply At_Pw, int_At; lia).
  assert (exists L a, (if rsign r =? 1 then [Ratio (rnum r) (rden r)] else [Minus; Ratio (rnum r) (rden r)]) = L ++ [Ratio (rnum r) (rden r)] /\
    Pw (L ++ [Leaf (int (rnum r))]) a /\ divisions L = L /\ forall rho, eval rho a = Some (IZR (rsign r * rnum r))) as (L & a & -> & Ha & DL & Va).
  { destruct Sg as [E|E]; rewrite E; cbn [Z.eqb Pos.eqb].
    - exists [], p. split; [reflexivity|]. split; [apply At_Pw, int_At; exact P|]. split; [reflexivity|].
      intros rho. rewrite Z.mul_1_l. exact (num_int _).
    - exists [Minus], (e_neg p). split; [reflexivity|]. split; [|split; [reflexivity|]].
      + exists (e_neg p). split; [apply eqv_refl|]. intros k Nk. cbn [app]. apply F_minus, F_atom; [|exact Nk]. apply A_leaf, int_plain, P.
      + intros rho. unfold e_neg. rewrite eval_mk1. unfold p. cbn [eval int]. rewrite num_int. cbn [obind ev1]. f_equal.
        rewrite <- opp_IZR. f_equal. }
  rewrite divisions_app, DL. change (divisions [Ratio (rnum r) (rden r)]) with ([Leaf (int (rnum r))] ++ Sign ODiv :: [Leaf (int (rden r))]).
  rewrite app_assoc.
  assert (eqv (e_div a q) (e_num n)) as E.
  { intros rho. unfold e_div. rewrite eval_mk2, Va. unfold q. cbn [eval e_num int]. rewrite num_int, Vn. cbn [obind ev2].
    destruct (Req_EM_T (IZR (rden r)) 0); [contradiction|reflexivity]. }
  split; [apply (PrS_eqv _ _ _ E), div_PrS|apply (PrA_eqv _ _ _ E), div_PrA]; auto using Pw_PrS, Pw_PrA, Pw_PrD.
Qed.
Lemma usual_K e : usual e -> K e.
Proof.
  induction 1 as [o P|e Ne|e Fe|t a I U Ha Na Fa|a U Ha N|a b Ua Ha Ub Hb|a b Ua Ha Ub Hb N|a b Ua Ha Ub Hb|a b Ua Ha Ub Hb N Fb|a b Ua Ha Ub Hb N Na Fa N' Fb].
  - apply At_K. exists (Expr (Operand o) []). split; [apply eqv_refl|]. intros r. rewrite (dk_plain o P).
    apply A_leaf. exact P.
  - destruct (literal_neg e Ne) as (n & -> & Hn).
    assert (Pw (dk 0 (e_num n)) (e_num n)) as S1.
    { exists (e_neg (Expr (Operand (Num (opp_num n))) [])). split.
      - intros rho. unfold e_neg. rewrite eval_mk1. cbn [eval e_num]. rewrite (neg_value n Hn).
        destruct (num_R (opp_num n)); reflexivity.
      - intros r N. unfold dk. cbn [tk e_num]. unfold tk_od. rewrite (neg_not_frac _ Hn), Hn. cbn [divisions flat_map app]. apply F_minus. apply F_atom; [|exact N].
        apply A_leaf. apply neg_plain. exact Hn. }
    pose proof (PrS_PrP _ _ (Pw_PrS _ _ S1)) as Q.
    constructor; intros; auto using PrP_SuS, PrP_SuA, Pw_PrA, Pw_PrS. contradiction.
  - destruct (lit_frac e Fe) as (n & r & -> & Hr). destruct (frac_K n r Hr) as [S1 S2]. pose proof (PrS_PrP _ _ S1) as Q.
    constructor; intros; auto using PrP_SuS, PrP_SuA; contradiction.
  - apply At_K. rewrite dk_mk1.
    assert (binds t = 5 /\ t <> ONeg) as [B Nn] by (cbn in I; decompose [or] I; subst; try (split; [reflexivity|discriminate]); contradiction).
    rewrite B. replace (match t with ONeg => Minus | _ => Fn t end) with (Fn t) by (destruct t; try reflexivity; congruence).
    apply fn_At; [exact I|]. apply op_At5; assumption.
  - assert (PrS (dk 0 (e_neg a)) (e_neg a)) as S.
    { unfold e_neg. rewrite dk_mk1. apply neg_PrS. change (binds ONeg) with 1.
      destruct (op_cases 1 a Ha) as [A|[-> B]]; [apply Pw_PrS, At_Pw; exact A|]. apply (k_prs _ Ha). exact N. }
    constructor; intros; [apply PrP_SuS, PrS_PrP; exact S|unfold e_neg in *; absurd_top|exact S|unfold e_neg in *; absurd_top..].
  - assert (SuS (dk 0 (e_add a b)) (e_add a b)) as S1 by (unfold e_add; rewrite dk_mk2; apply add_SuS; [apply op_SuS2|apply op_SuA2]; assumption).
    constructor; intros; [exact S1| |unfold e_add in *; absurd_top..].
    unfold e_add. rewrite dk_mk2. apply add_SuA; apply op_SuA2; assumption.
  - assert (SuS (dk 0 (e_sub a b)) (e_sub a b)) as S1 by (unfold e_sub; rewrite dk_mk2; apply sub_SuS; [apply op_SuS2|apply op_SuB2]; assumption).
    constructor; intros; [exact S1| |unfold e_sub in *; absurd_top..].
    unfold e_sub. rewrite dk_mk2. apply sub_SuA; [apply op_SuA2|apply op_SuB2]; assumption.
  - assert (PrS (dk 0 (e_mul a b)) (e_mul a b)) as S1.
    { unfold e_mul. rewrite dk_mk2. apply mul_PrS; [apply op_PrS|apply op_PrA]; try assumption; cbn [binds]; lia. }
    constructor; intros; [apply PrP_SuS, PrS_PrP; exact S1|apply PrP_SuA, PrS_PrP; exact S1|exact S1| |unfold e_mul in *; absurd_top..].
    unfold e_mul. rewrite dk_mk2. apply mul_PrA; apply op_PrA; try assumption; cbn [binds]; lia.
  - assert (PrS (dk 0 (e_div a b)) (e_div a b)) as S1.
    { unfold e_div. rewrite dk_mk2. apply div_PrS; [apply op_PrS|apply Pw_PrD, op_Pw4]; try assumption; cbn [binds]; lia. }
    constructor; intros; [apply PrP_SuS, PrS_PrP; exact S1|apply PrP_SuA, PrS_PrP; exact S1|exact S1| |unfold e_div in *; absurd_top..].
    unfold e_div. rewrite dk_mk2. apply div_PrA; [apply op_PrA|apply Pw_PrD, op_Pw4]; try assumption; cbn [binds]; lia.
  - assert (Pw (dk 0 (e_pow a b)) (e_pow a b)) as S1.
    { unfold e_pow. rewrite dk_mk2. apply pow_Pw; [apply op_At4|apply op_Pw4]; assumption. }
    pose proof (PrS_PrP _ _ (Pw_PrS _ _ S1)) as Q.
    constructor; intros; auto using PrP_SuS, PrP_SuA, Pw_PrA, Pw_PrS. unfold e_pow in *; absurd_top.
Qed.

(** ** only one reading *)
Definition conv (k : token) : tok :=
  match k with
  | Leaf o => TAtom (leaf_text o) | Ratio p q => TAtom (string_of_Z p ++ "/" ++ string_of_Z q)%string | Sign t => TOp t | Fn t => TFun t | Minus => TMinus | Open => TL | Close => TR
  end.
Lemma spell_render l : spell l = render (map conv l).
Proof.
  induction l as [|k l IH]; [reflexivity|]. cbn [spell map render]. rewrite IH. f_equal.
  destruct k as [o|p q|t|t| | |]; cbn [spell1 conv render1]; rewrite ?sign_symbol; reflexivity.
Qed.

Scheme sum_m := Minimality for sum Sort Prop
  with more_sum_m := Minimality for more_sum Sort Prop
  with product_m := Minimality for product Sort Prop
  with more_product_m := Minimality for more_product Sort Prop
  with factor_m := Minimality for factor Sort Prop
  with atom_m := Minimality for atom Sort Prop.
Combined Scheme reading_ind from sum_m, more_sum_m, product_m, more_product_m, factor_m, atom_m.

Lemma plain_leaf_text o : plain_leaf o -> atom_text (leaf_text o).
Proof.
  destruct o as [n|x]; cbn [plain_leaf leaf_text].
  - intros [P _]. exact (plain_number_atom n P).
  - apply plain_name_atom.
Qed.

(** what has been read is lexically well formed *)
Lemma read_lexwf :
  (forall ts e r, sum ts e r -> lexwf false (map conv r) -> lexwf true (map conv ts)) /\
  (forall a ts e r, more_sum a ts e r -> lexwf false (map conv r) -> lexwf false (map conv ts)) /\
  (forall ts e r, product ts e r -> lexwf false (map conv r) -> lexwf true (map conv ts)) /\
  (forall a ts e r, more_product a ts e r -> lexwf false (map conv r) -> lexwf false (map conv ts)) /\
  (forall ts e r, factor ts e r -> lexwf false (map conv r) -> lexwf true (map conv ts)) /\
  (forall ts e r, atom ts e r -> lexwf false (map conv r) -> lexwf true (map conv ts)).
Proof.
  apply reading_ind; intros; cbn [map conv lexwf] in *; auto.
  - split; auto using plain_leaf_text.
  - split; [|auto]. cbn in H. decompose [or] H; subst; try reflexivity. contradiction.
Qed.

Notation mc l := (map conv l).
Lemma mc_sign t l l' : mc (Sign t :: l) = mc l' -> exists l0, l' = Sign t :: l0 /\ mc l = mc l0.
Proof. destruct l' as [|[]]; cbn [map conv]; intros [=]; subst; eauto. Qed.
Lemma mc_starts l l' ops : mc l = mc l' -> starts_with l ops -> starts_with l' ops.
Proof. intros E (t & r & -> & I). apply mc_sign in E as (l0 & -> & _). exists t, l0. auto. Qed.
Lemma start_sign t r l : In t l -> starts_with (Sign t :: r) l.
Proof. intros I. exists t, r. auto. Qed.

Lemma leaf_same o o' : plain_leaf o -> plain_leaf o' -> leaf_text o = leaf_text o' ->
  same_text (Expr (Operand o) []) (Expr (Operand o') []).
Proof.
  destruct o as [n|x], o' as [n'|x']; cbn [plain_leaf leaf_text]; intros P P' E.
  - apply St_num. destruct (sn_to_string_ok n) as [s Es], (sn_to_string_ok n') as [s' Es']. rewrite Es, Es' in *. congruence.
  - exfalso. exact (plain_name_not_number x' n P' (proj1 P) E).
  - exfalso. exact (plain_name_not_number x n' P (proj1 P') (eq_sym E)).
  - subst. apply St_var.
Qed.

Lemma read_unique :
  (forall ts e r, sum ts e r -> forall ts' e' r', sum ts' e' r' -> mc ts = mc ts' -> same_text e e' /\ mc r = mc r') /\
  (forall a ts e r, more_sum a ts e r -> forall a' ts' e' r', more_sum a' ts' e' r' -> same_text a a' -> mc ts = mc ts' -> same_text e e' /\ mc r = mc r') /\
  (forall ts e r, product ts e r -> forall ts' e' r', product ts' e' r' -> mc ts = mc ts' -> same_text e e' /\ mc r = mc r') /\
  (forall a ts e r, more_product a ts e r -> forall a' ts' e' r', more_product a' ts' e' r' -> same_text a a' -> mc ts = mc ts' -> same_text e e' /\ mc r = mc r') /\
  (forall ts e r, factor ts e r -> forall ts' e' r', factor ts' e' r' -> mc ts = mc ts' -> same_text e e' /\ mc r = mc r') /\
  (forall ts e r, atom ts e r -> forall ts' e' r', atom ts' e' r' -> mc ts = mc ts' -> same_text e e' /\ mc r = mc r').
Proof.
  apply reading_ind.
  - intros ts a r1 e r _ IH1 _ IH2 ts' e' r' H E. inversion H as [? a' r1' ? ? Hp Hm]; subst.
    destruct (IH1 _ _ _ Hp E) as [Sa Er]. exact (IH2 _ _ _ _ Hm Sa Er).
  - intros a ts b r1 e r _ IH1 _ IH2 a' ts' e' r' H Sa E. apply mc_sign in E as (l0 & -> & E).
    inversion H as [? ? b' r1' ? ? Hp Hm|? ? b' r1' ? ? Hp Hm|? ? Hn]; subst.
    + destruct (IH1 _ _ _ Hp E) as [Sb Er]. exact (IH2 _ _ _ _ Hm (St_bin OAdd _ _ _ _ Sa Sb) Er).
    + elim Hn. apply start_sign. cbn. auto.
  - intros a ts b r1 e r _ IH1 _ IH2 a' ts' e' r' H Sa E. apply mc_sign in E as (l0 & -> & E).
    inversion H as [? ? b' r1' ? ? Hp Hm|? ? b' r1' ? ? Hp Hm|? ? Hn]; subst.
    + destruct (IH1 _ _ _ Hp E) as [Sb Er]. exact (IH2 _ _ _ _ Hm (St_bin OSub _ _ _ _ Sa Sb) Er).
    + elim Hn. apply start_sign. cbn. auto.
  - intros a ts N a' ts' e' r' H Sa E. inversion H; subst; try (elim N; apply (mc_starts _ _ _ (eq_sym E)), start_sign; cbn; auto; fail).
    auto.
  - intros ts a r1 e r _ IH1 _ IH2 ts' e' r' H E. inversion H as [? a' r1' ? ? Hp Hm]; subst.
    destruct (IH1 _ _ _ Hp E) as [Sa Er]. exact (IH2 _ _ _ _ Hm Sa Er).
  - intros a ts b r1 e r _ IH1 _ IH2 a' ts' e' r' H Sa E. apply mc_sign in E as (l0 & -> & E).
    inversion H as [? ? b' r1' ? ? Hp Hm|? ? b' r1' ? ? Hp Hm|? ? Hn]; subst.
    + destruct (IH1 _ _ _ Hp E) as [Sb Er]. exact (IH2 _ _ _ _ Hm (St_bin OMul _ _ _ _ Sa Sb) Er).
    + elim Hn. apply start_sign. cbn. auto.
  - intros a ts b r1 e r _ IH1 _ IH2 a' ts' e' r' H Sa E. apply mc_sign in E as (l0 & -> & E).
    inversion H as [? ? b' r1' ? ? Hp Hm|? ? b' r1' ? ? Hp Hm|? ? Hn]; subst.
    + destruct (IH1 _ _ _ Hp E) as [Sb Er]. exact (IH2 _ _ _ _ Hm (St_bin ODiv _ _ _ _ Sa Sb) Er).
    + elim Hn. apply start_sign. cbn. auto.
  - intros a ts N a' ts' e' r' H Sa E. inversion H; subst; try (elim N; apply (mc_starts _ _ _ (eq_sym E)), start_sign; cbn; auto; fail).
    auto.
  - intros ts a r _ IH ts' e' r' H E. destruct ts' as [|[] l]; try discriminate E. injection E as E.
    inversion H as [? a' ? Ha|? ? ? ? ? Ha|? ? ? Ha]; subst; [|inversion Ha..].
    destruct (IH _ _ _ Ha E) as [Sa Er]. split; [exact (St_un ONeg _ _ Sa)|exact Er].
  - intros ts a ts1 b r A0 IH1 _ IH2 ts' e' r' H E. inversion H as [? a' ? Ha|? a' ts2 b' ? Ha Hb|? ? ? Ha Hn]; subst.
    + exfalso. destruct ts as [|[] l]; try discriminate E. inversion A0.
    + destruct (IH1 _ _ _ Ha E) as [Sa Er]. apply mc_sign in Er as (l0 & [= <-] & Er).
      destruct (IH2 _ _ _ Hb Er) as [Sb Er']. split; [exact (St_bin OPow _ _ _ _ Sa Sb)|exact Er'].
    + exfalso. destruct (IH1 _ _ _ Ha E) as [_ Er]. apply Hn. apply (mc_starts _ _ _ Er), start_sign. cbn. auto.
  - intros ts a r Ha0 IH N ts' e' r' H E. inversion H as [? a' ? Ha|? a' ts2 b' ? Ha Hb|? ? ? Ha Hn]; subst.
    + exfalso. destruct ts as [|[] l]; try discriminate E. inversion Ha0.
    + exfalso. destruct (IH _ _ _ Ha E) as [_ Er]. apply N. apply (mc_starts _ _ _ (eq_sym Er)), start_sign. cbn. auto.
    + exact (IH _ _ _ Ha E).
  - intros o r P ts' e' r' H E. destruct ts' as [|[] l]; try discriminate E; [|inversion H]. cbn [map conv] in E. injection E as E E'.
    inversion H as [? ? P'|?|?]; subst. split; [apply leaf_same; assumption|exact E'].
  - intros ts e r _ IH ts' e' r' H E. destruct ts' as [|[] l]; try discriminate E. injection E as E.
    inversion H as [|? ? ? Hs|]; subst. destruct (IH _ _ _ Hs E) as [Se Er]. split; [exact Se|]. cbn [map conv] in Er. now injection Er.
  - intros t ts a r I _ IH ts' e' r' H E. destruct ts' as [|[] l]; try discriminate E. injection E as -> E.
    inversion H as [| |? ? a' ? I' Ha]; subst. destruct (IH _ _ _ Ha E) as [Sa Er]. split; [exact (St_un _ _ _ Sa)|exact Er].
Qed.

(** leaves of what has been read are plain *)
Definition leaves (l : list token) : Prop := forall o, In (Leaf o) l -> plain_leaf o.
Lemma leaves_cons k l : (forall o, k <> Leaf o) -> leaves l -> leaves (k :: l).
Proof. intros N H o [E|I]; [elim (N o E)|exact (H o I)]. Qed.
Lemma read_leaves :
  (forall ts e r, sum ts e r -> leaves r -> leaves ts) /\
  (forall a ts e r, more_sum a ts e r -> leaves r -> leaves ts) /\
  (forall ts e r, product ts e r -> leaves r -> leaves ts) /\
  (forall a ts e r, more_product a ts e r -> leaves r -> leaves ts) /\
  (forall ts e r, factor ts e r -> leaves r -> leaves ts) /\
  (forall ts e r, atom ts e r -> leaves r -> leaves ts).
Proof.
  apply reading_ind; intros; auto; try (apply leaves_cons; [discriminate|]; auto).
  - apply H0. apply leaves_cons; [discriminate|auto].
  - intros o' [[= <-]|I]; auto.
  - apply H0. apply leaves_cons; [discriminate|assumption].
Qed.

Lemma neg_atom z s : z < 0 -> ~ atom_text (string_of_Z z ++ s).
Proof. intros L (_ & (c & t & E & N) & _). rewrite (string_of_neg z L) in E. cbn [append] in E. injection E as <- _. congruence. Qed.
Lemma ratio_atom p q : atom_text (string_of_Z p) -> atom_text (string_of_Z q) -> atom_text (string_of_Z p ++ "/" ++ string_of_Z q) /\ 0 <= p /\ 0 <= q.
Proof.
  intros A B. assert (0 <= p) as P by (destruct (Z.lt_ge_cases p 0) as [L|L]; [elim (neg_atom p "" L); rewrite app_nil_s; exact A|lia]).
  assert (0 <= q) as Q by (destruct (Z.lt_ge_cases q 0) as [L|L]; [elim (neg_atom q "" L); rewrite app_nil_s; exact B|lia]).
  split; [|auto]. split; [|split].
  - apply word_app; [apply A|]. apply word_app; [repeat split; discriminate|apply B].
  - destruct A as (_ & (c & t & -> & N) & _). exists c, (t ++ "/" ++ string_of_Z q)%string. split; [reflexivity|exact N].
  - destruct (num_first p P) as (c & t & E & D). rewrite E. intros f. cbn [append]. now apply digit_not_fun.
Qed.
Lemma fold_lexwf l : forall b, lexwf b (mc (divisions l)) -> lexwf b (mc l) /\ forall p q, In (Ratio p q) l -> 0 <= p /\ 0 <= q.
Proof.
  induction l as [|k l IH]; intros b H; [split; [exact H|contradiction]|].
  destruct k as [o|p q|t|t| | |]; cbn [divisions flat_map app map conv lexwf] in *; fold (divisions l) in *;
    destruct b; try contradiction.
  2: { destruct H as [A [_ [B H]]]. destruct (ratio_atom p q A B) as (C & P & Q). destruct (IH _ H) as [H1 H2].
       split; [auto|]. intros p' q' [[= <- <-]|I]; auto. }
  all: first [destruct H as [A H]; destruct (IH _ H) as [H1 H2]|destruct (IH _ H) as [H1 H2]];
    (split; [auto|]); intros p' q' [E|I]; [discriminate E|exact (H2 _ _ I)].
Qed.
Lemma no_slash o : plain_leaf o -> forall p q, 0 <= p -> leaf_text o <> (string_of_Z p ++ "/" ++ string_of_Z q)%string.
Proof.
  intros Po p q P E. destruct (num_first p P) as (c & t & Ep & D). destruct o as [n|x].
  - destruct Po as (_ & Nr & _).
    assert (free_of "/"%char (leaf_text (Num n))) as F.
    { cbn [leaf_text]. unfold sn_to_string. destruct (ntag n); cbn; try (repeat split; discriminate).
      assert (forall z, free_of "/"%char (string_of_Z z)) as Z1 by (intros; apply Z_free; [reflexivity|discriminate]).
      assert (forall k, free_of "/"%char (fixed3 k)) as F3.
      { intros k. unfold fixed3, digit. repeat apply free_app; try apply Z1. cbn. repeat split; discriminate. }
      destruct (nval n) as [z|r|f]; cbn [val_to_string]; [apply Z1|destruct (Nr r); reflexivity|].
      destruct f as [[]|[]| |[] m e]; cbn [f_to_string]; try (cbn; repeat split; discriminate);
        try (apply free_app; [cbn; repeat split; discriminate|apply F3]); apply F3. }
    rewrite E in F. clear - F. induction (string_of_Z p) as [|d s IH]; cbn in F; [destruct F; congruence|]. apply IH, F.
  - destruct Po as (_ & (d & s & -> & Dn & _) & _). cbn [leaf_text] in E. rewrite Ep in E. injection E as -> _. contradiction.
Qed.
Lemma same_divisions l : forall l', (forall o, In (Leaf o) l -> plain_leaf o) -> (forall o, In (Leaf o) l' -> plain_leaf o) ->
  (forall p q, In (Ratio p q) l -> 0 <= p /\ 0 <= q) -> (forall p q, In (Ratio p q) l' -> 0 <= p /\ 0 <= q) ->
  mc l = mc l' -> mc (divisions l) = mc (divisions l').
Proof.
  induction l as [|k l IH]; intros [|k' l'] L L' Q Q' E; try discriminate E; [reflexivity|].
  cbn [map] in E. injection E as Ek E.
  assert (mc (divisions l) = mc (divisions l')) as IH'.
  { apply IH; [intros; apply L; right; assumption|intros; apply L'; right; assumption|intros; apply Q; right; assumption|
      intros; apply Q'; right; assumption|exact E]. }
  destruct k as [o|p q|t|t| | |], k' as [o'|p' q'|t'|t'| | |]; cbn [conv] in Ek; try discriminate Ek;
    cbn [divisions flat_map app map conv] in *; fold (divisions l) (divisions l'); try congruence.
  - exfalso. injection Ek as Ek. apply (no_slash o (L o (or_introl eq_refl)) p' q'); [apply (Q' p' q'); left; reflexivity|exact Ek].
  - exfalso. injection Ek as Ek. apply (no_slash o' (L' o' (or_introl eq_refl)) p q); [apply (Q p q); left; reflexivity|symmetry; exact Ek].
  - injection Ek as Ek. apply (Z_upto "/"%char) in Ek; [|reflexivity|discriminate]. destruct Ek as [-> Ek]. apply Z_inj in Ek as ->.
    rewrite IH'. reflexivity.
Qed.
Lemma leaves_of l : leaves (divisions l) -> leaves l.
Proof.
  intros H o I. apply H. unfold divisions. apply in_flat_map. exists (Leaf o). split; [exact I|left; reflexivity].
Qed.

(** ** the theorems *)
(** C102: expressions in the usual form print a text that, read by the usual rules, has their value *)
Theorem c102_usual e : usual e -> prints_usual e.
Proof.
  intros U. destruct (k_sus _ (usual_K e U)) as (e' & E & R). exists (spell (tk 0 e)), e'. split; [|split; [|exact E]].
  - exact (wrote e U 0).
  - exists (tk 0 e). split; [reflexivity|]. change (divisions (tk 0 e)) with (dk 0 e). rewrite <- (app_nil_r (dk 0 e)).
    apply (R [] e' []); [apply nop_nil|]. apply S_end, nop_nil.
Qed.

(** C102: a text has at most one reading, up to numbers printed alike *)
Theorem c102_reading_unique s e1 e2 : reads s e1 -> reads s e2 -> same_text e1 e2.
Proof.
  intros (t1 & E1 & R1) (t2 & E2 & R2). apply (proj1 read_unique _ _ _ R1 _ _ _ R2).
  destruct (fold_lexwf _ _ (proj1 read_lexwf _ _ _ R1 eq_refl)) as [W1 Q1].
  destruct (fold_lexwf _ _ (proj1 read_lexwf _ _ _ R2 eq_refl)) as [W2 Q2].
  apply same_divisions; [| |exact Q1|exact Q2|].
  - apply leaves_of. apply (proj1 read_leaves _ _ _ R1). intros o [].
  - apply leaves_of. apply (proj1 read_leaves _ _ _ R2). intros o [].
  - apply (render_inj _ true _ W1 W2). rewrite <- !spell_render. congruence.
Qed.
Print Assumptions c102_usual.
Print Assumptions c102_reading_unique.

(** ** the forms that are left out are all printed wrongly *)
(** variables and nonnegative integers at the leaves *)
Inductive whole : expr -> Prop :=
| L_var x : whole (e_var x)
| L_int z : 0 <= z -> whole (Expr (Operand (int z)) [])
| L_un t a : whole a -> whole (mk1 t a)
| L_bin t a b : whole a -> whole b -> whole (mk2 t a b).
(** all leaves plain *)
Inductive plain : expr -> Prop :=
| Pl_leaf o : plain_leaf o -> plain (Expr (Operand o) [])
| Pl_un t a : plain a -> plain (mk1 t a)
| Pl_bin t a b : plain a -> plain b -> plain (mk2 t a b).
Lemma mk1_inj t t' a a' : mk1 t a = mk1 t' a' -> t = t' /\ a = a'.
Proof. unfold mk1. intros [= E ->]. split; [apply (f_equal descriptor) in E; rewrite !descriptor_gen in E; exact E|reflexivity]. Qed.
Lemma mk2_inj t t' a a' b b' : mk2 t a b = mk2 t' a' b' -> t = t' /\ a = a' /\ b = b'.
Proof. unfold mk2. intros [= E -> ->]. split; [apply (f_equal descriptor) in E; rewrite !descriptor_gen in E; exact E|auto]. Qed.
Lemma read_plain :
  (forall ts e r, sum ts e r -> plain e) /\
  (forall a ts e r, more_sum a ts e r -> plain a -> plain e) /\
  (forall ts e r, product ts e r -> plain e) /\
  (forall a ts e r, more_product a ts e r -> plain a -> plain e) /\
  (forall ts e r, factor ts e r -> plain e) /\
  (forall ts e r, atom ts e r -> plain e).
Proof.
  apply reading_ind; unfold e_add, e_sub, e_mul, e_div, e_pow, e_neg; intros; auto using Pl_leaf, Pl_un, Pl_bin.
Qed.
Lemma dot_free z : free_of "."%char (string_of_Z z).
Proof. apply Z_free; [reflexivity|discriminate]. Qed.
Lemma dot_in_fixed k : ~ free_of "."%char (fixed3 k).
Proof.
  unfold fixed3. intros F. induction (string_of_Z (k / 1000)) as [|d s IH]; cbn in F; [destruct F; congruence|]. apply IH, F.
Qed.
Lemma leaf_value n z : plain_leaf (Num n) -> 0 <= z -> leaf_text (Num n) = string_of_Z z -> num_R n = Some (IZR z).
Proof.
  intros (P & Nr & T0 & T1) Hz E. destruct (num_first z Hz) as (c & t & Ez & D). pose proof (dot_free z) as Dz.
  cbn [leaf_text] in E. unfold sn_to_string in E. unfold num_R.
  destruct (ntag n); cbn [tag_eqb negb tag_to_string] in E.
  - change "0"%string with (string_of_Z 0) in E. apply Z_inj in E as <-. destruct (T0 eq_refl) as (q & -> & Q).
    cbn [option_map]. rewrite (Qeq_eqR _ _ Q), RMicromega.Q2R_0. reflexivity.
  - change "1"%string with (string_of_Z 1) in E. apply Z_inj in E as <-. destruct (T1 eq_refl) as (q & -> & Q).
    cbn [option_map]. rewrite (Qeq_eqR _ _ Q), RMicromega.Q2R_1. reflexivity.
  - rewrite Ez in E. injection E as <- _. elim D. reflexivity.
  - rewrite Ez in E. injection E as <- _. elim D. reflexivity.
  - destruct (nval n) as [y|r|f]; cbn [val_to_string] in E.
    + apply Z_inj in E as ->. cbn [val_Q option_map]. f_equal. unfold Q2R, inject_Z. cbn [Qnum Qden]. field.
    + destruct (Nr r). reflexivity.
    + exfalso. rewrite <- E in Dz. clear - Dz E D Ez.
      destruct f as [[]|[]| |[] m e]; cbn [f_to_string append] in Dz, E;
        first [exact (dot_in_fixed _ Dz)|rewrite Ez in E; injection E as <- _; elim D; reflexivity].
Qed.
Lemma whole_same e1 e2 : whole e1 -> plain e2 -> same_text e1 e2 -> eqv e2 e1.
Proof.
  intros L. revert e2. induction L as [x|z Hz|t a La IH|t a b La IHa Lb IHb]; intros e2 Pl H.
  - inversion H; subst. apply eqv_refl.
  - remember (Expr (Operand (int z)) []) as q eqn:Q. destruct H as [n n' Sn| |t' a' a2 Sa|t' a' a2 b' b2 Sa Sb]; try discriminate Q.
    injection Q as ->. intros rho. cbn [eval e_num int]. rewrite num_int. apply leaf_value; [|exact Hz|].
    + remember (e_num n') as q eqn:Q. destruct Pl as [o Po| |]; try discriminate Q. injection Q as ->. exact Po.
    + cbn [leaf_text]. rewrite <- Sn. reflexivity.
  - remember (mk1 t a) as q eqn:Q. destruct H as [| |t' a' a2 Sa|t' a' a2 b' b2 Sa Sb]; try discriminate Q.
    apply mk1_inj in Q as [-> ->].
    remember (mk1 t a2) as q eqn:Q. destruct Pl as [|t2 a3 Pa|]; try discriminate Q. apply mk1_inj in Q as [-> ->].
    apply eqv_mk1, (IH _ Pa Sa).
  - remember (mk2 t a b) as q eqn:Q. destruct H as [| |t' a' a2 Sa|t' a' a2 b' b2 Sa Sb]; try discriminate Q.
    apply mk2_inj in Q as (-> & -> & ->).
    remember (mk2 t a2 b2) as q eqn:Q. destruct Pl as [| |t2 a3 b3 Pa Pb]; try discriminate Q. apply mk2_inj in Q as (-> & -> & ->).
    apply eqv_mk2; auto.
Qed.
Lemma misprints_by e s e' rho : wf e -> e_to_string e = Ok s -> reads s e' -> whole e' -> eval rho e <> eval rho e' -> misprints e.
Proof.
  intros W T R L N. split; [exact W|]. split; [exists s, e'; auto|].
  intros (s2 & e2 & T2 & R2 & V). rewrite T in T2. injection T2 as <-.
  pose proof (c102_reading_unique _ _ _ R R2) as S2. destruct R2 as (ts & _ & R2).
  pose proof (whole_same _ _ L (proj1 read_plain _ _ _ R2) S2 rho) as Q. apply N. rewrite <- Q. symmetry. apply V.
Qed.

Definition X := e_var "x". Definition Y := e_var "y".
Definition I (z : Z) : expr := Expr (Operand (int z)) [].
Definition frac (p q : Z) : expr := e_num (mkNum (Rational (mkRat 1 p q)) TNothing).
Definition at_ (a b : R) (v : string) : R := if String.eqb v "x" then a else b.
Lemma leaf_x r : atom (Leaf (Var "x") :: r) X r. Proof. apply A_leaf, plain_name_x. Qed.
Lemma leaf_y r : atom (Leaf (Var "y") :: r) Y r. Proof. apply A_leaf, plain_name_y. Qed.
Lemma leaf_i z r : 0 <= z -> atom (Leaf (int z) :: r) (I z) r. Proof. intros H. apply A_leaf, int_plain, H. Qed.
Ltac nopt := let t := fresh in let q := fresh in let E := fresh in let I := fresh in
  intros (t & q & E & I); first [discriminate E|injection E as <- <-; cbn in I; intuition discriminate].
Ltac rd_atom := first [apply leaf_x|apply leaf_y|apply leaf_i; lia|apply (A_fn OLn); [cbn; tauto|rd_atom]].
Ltac rd_factor := first [eapply F_minus; rd_factor | eapply F_power; [rd_atom|rd_factor] | eapply F_atom; [rd_atom|nopt]].
Ltac rd_more_product := first [eapply P_mul; [rd_factor|rd_more_product]|eapply P_div; [rd_factor|rd_more_product]|eapply P_end; nopt].
Ltac rd_product := eapply P_product; [rd_factor|rd_more_product].
Ltac rd_more_sum := first [eapply S_add; [rd_product|rd_more_sum]|eapply S_sub; [rd_product|rd_more_sum]|eapply S_end; nopt].
Ltac rd_sum := eapply S_sum; [rd_product|rd_more_sum].
Ltac rd l := exists l; split; [reflexivity|cbn [divisions flat_map app]; rd_sum].
Notation lx := (Leaf (Var "x")). Notation ly := (Leaf (Var "y")).
Ltac lets := repeat first [apply L_var|apply L_int; lia|apply L_bin|apply L_un].
Ltac ev := unfold e_neg, e_add, e_sub, e_mul, e_div, e_pow, e_ln; rewrite ?eval_mk2, ?eval_mk1, ?eval_mk2; cbn [eval e_var X Y];
  unfold at_; cbn [String.eqb Ascii.eqb Bool.eqb obind ev1 ev2].
Lemma eval_I rho z : eval rho (I z) = Some (IZR z). Proof. exact (num_int z). Qed.
Lemma eval_half rho : eval rho (frac 1 2) = Some (1 / 2)%R.
Proof. change (eval rho (frac 1 2)) with (Some (Q2R (1 # 2))). f_equal; unfold Q2R; cbn [Qnum Qden]; lra. Qed.
Lemma eval_3half rho : eval rho (frac 3 2) = Some (3 / 2)%R.
Proof. change (eval rho (frac 3 2)) with (Some (Q2R (3 # 2))). f_equal; unfold Q2R; cbn [Qnum Qden]; lra. Qed.

Lemma p_to_0 a : (0 < a)%R -> powR a 0 = Some 1%R.
Proof. intros H. unfold powR. destruct (Rlt_dec 0 a); [|lra]. rewrite Rpower_O; [reflexivity|assumption]. Qed.
Lemma p_00 : powR 0 0 = Some 1%R.
Proof. unfold powR. destruct (Rlt_dec 0 0); [lra|]. destruct (Req_EM_T 0 0); [reflexivity|lra]. Qed.
Lemma p_01 : powR 0 1 = Some 0%R.
Proof. unfold powR. destruct (Rlt_dec 0 0); [lra|]. destruct (Req_EM_T 0 0); [|lra]. destruct (Rlt_dec 0 1); [reflexivity|lra]. Qed.
Lemma p_any_0 a : powR a 0 = Some 1%R.
Proof.
  destruct (Rlt_dec 0 a) as [H|H]; [apply p_to_0; exact H|]. destruct (Req_EM_T a 0) as [->|N]; [apply p_00|].
  unfold powR. destruct (Rlt_dec 0 a); [contradiction|]. destruct (Req_EM_T a 0); [contradiction|].
  assert (Int_part 0 = 0) as -> by (symmetry; unfold Int_part; rewrite <- (tech_up 0 1); [lia|lra|lra]).
  destruct (Req_EM_T 0 0); [reflexivity|congruence].
Qed.
Lemma p_1 b : powR 1 b = Some 1%R.
Proof. unfold powR. destruct (Rlt_dec 0 1); [|lra]. unfold Rpower. rewrite ln_1, Rmult_0_r, exp_0. reflexivity. Qed.
Ltac pows := repeat (cbn [obind ev2]; first [rewrite p_00|rewrite p_01|rewrite p_to_0 by lra]); cbn [obind ev2];
  repeat (destruct (Req_EM_T _ 0); cbn [obind ev2]; [lra|]).

Theorem c102_refuted :
  misprints (e_neg (e_add X Y)) /\
  misprints (e_sub X (e_sub Y X)) /\
  misprints (e_div X (e_div Y X)) /\
  misprints (e_pow (e_div X Y) X) /\
  misprints (e_pow (e_pow X Y) X) /\
  misprints (e_pow Y (e_div X Y)) /\
  misprints (e_pow (e_of_i64 (-2)) X) /\
  misprints (e_div X (frac 1 2)) /\
  misprints (e_pow X (frac 1 2)) /\
  misprints (e_pow (frac 3 2) X) /\
  misprints (e_ln (frac 1 2)) /\
  unreadable (e_sin (e_of_i64 (-2))).
Proof.
  repeat match goal with |- _ /\ _ => split end.
  - apply (misprints_by _ "-x + y" (e_add (e_neg X) Y) (at_ 1 1)); [repeat constructor|reflexivity|rd [Minus; lx; Sign OAdd; ly]|lets|].
    ev. intros [= E]. lra.
  - apply (misprints_by _ "x - y - x" (e_sub (e_sub X Y) X) (at_ 1 0)); [repeat constructor|reflexivity|rd [lx; Sign OSub; ly; Sign OSub; lx]|lets|].
    ev. intros [= E]. lra.
  - apply (misprints_by _ "x / y / x" (e_div (e_div X Y) X) (at_ 2 1)); [repeat constructor|reflexivity|rd [lx; Sign ODiv; ly; Sign ODiv; lx]|lets|].
    ev. repeat (destruct (Req_EM_T _ 0); cbn [obind ev2]; [lra|]). intros [= E]. lra.
  - apply (misprints_by _ "x / y ^ x" (e_div X (e_pow Y X)) (at_ 0 1)); [repeat constructor|reflexivity|rd [lx; Sign ODiv; ly; Sign OPow; lx]|lets|].
    ev. destruct (Req_EM_T 1 0); [lra|]. replace (0 / 1)%R with 0%R by lra. pows. intros [= E]. lra.
  - apply (misprints_by _ "x ^ y ^ x" (e_pow X (e_pow Y X)) (at_ 0 1)); [repeat constructor|reflexivity|rd [lx; Sign OPow; ly; Sign OPow; lx]|lets|].
    ev. pows. intros [= E]. lra.
  - apply (misprints_by _ "y ^ x / y" (e_div (e_pow Y X) Y) (at_ 0 2)); [repeat constructor|reflexivity|rd [ly; Sign OPow; lx; Sign ODiv; ly]|lets|].
    ev. destruct (Req_EM_T 2 0); [lra|]. replace (0 / 2)%R with 0%R by lra. pows. intros [= E]. lra.
  - apply (misprints_by _ "-2 ^ x" (e_neg (e_pow (I 2) X)) (at_ 0 0)); [repeat constructor; cbn; try lia; discriminate|vm_compute; reflexivity|rd [Minus; Leaf (int 2); Sign OPow; lx]|lets|].
    assert (forall rho, eval rho (e_of_i64 (-2)) = Some (Q2R (-2 # 1))) as M by reflexivity. ev. rewrite eval_I, M. cbn [obind ev2]. rewrite !p_any_0. cbn [obind ev1].
    intros [= E]. lra.
  - apply (misprints_by _ "x / 1/2" (e_div (e_div X (I 1)) (I 2)) (at_ 1 0)); [repeat constructor; cbn; try lia; discriminate|vm_compute; reflexivity|rd [lx; Sign ODiv; Ratio 1 2]|lets|].
    ev. rewrite !eval_I, eval_half. ev. repeat (destruct (Req_EM_T _ 0); cbn [obind ev2]; [lra|]). intros [= E]. lra.
  - apply (misprints_by _ "x ^ 1/2" (e_div (e_pow X (I 1)) (I 2)) (at_ 1 0)); [repeat constructor; cbn; try lia; discriminate|vm_compute; reflexivity|rd [lx; Sign OPow; Ratio 1 2]|lets|].
    ev. rewrite !eval_I, eval_half. ev. rewrite !p_1. cbn [obind ev2]. destruct (Req_EM_T 2 0); [lra|]. intros [= E]. lra.
  - apply (misprints_by _ "3/2 ^ x" (e_div (I 3) (e_pow (I 2) X)) (at_ 0 0)); [repeat constructor; cbn; try lia; discriminate|vm_compute; reflexivity|rd [Ratio 3 2; Sign OPow; lx]|lets|].
    ev. rewrite !eval_I, eval_3half. ev. rewrite !p_any_0. cbn [obind ev2]. destruct (Req_EM_T 1 0); [lra|]. intros [= E]. lra.
  - apply (misprints_by _ "ln1/2" (e_div (mk1 OLn (I 1)) (I 2)) (at_ 0 0)); [repeat constructor; cbn; try lia; discriminate|vm_compute; reflexivity|rd [Fn OLn; Ratio 1 2]|lets|].
    ev. rewrite !eval_I, eval_half. ev. destruct (Rlt_dec 0 (1 / 2)); [|lra]. destruct (Rlt_dec 0 1); [|lra].
    ev. destruct (Req_EM_T 2 0); [lra|]. rewrite ln_1. intros [= E]. pose proof (ln_increasing (1 / 2) 1 ltac:(lra) ltac:(lra)) as L.
    rewrite ln_1 in L. lra.
  - split; [repeat constructor|]. intros s e' T (ts & <- & R). destruct (fold_lexwf _ _ (proj1 read_lexwf _ _ _ R eq_refl)) as [W _].
    assert (map conv ts = [TFun OSin; TMinus; TAtom "2"]) as E.
    { apply (render_inj _ true _ W); [|rewrite <- spell_render; change (Ok "sin-2"%string = Ok (spell ts)) in T; injection T as <-; reflexivity].
      cbn [lexwf]. split; [reflexivity|]. split; [|reflexivity].
      apply (plain_leaf_text (int 2)), int_plain. lia. }
    destruct ts as [|[] [|[] ts]]; try discriminate E. cbn [divisions flat_map app] in R.
    inversion R as [? ? ? ? ? P _]; subst. inversion P as [? ? ? ? ? F _]; subst.
    inversion F as [|? ? ? ? ? A|? ? ? A]; subst; inversion A as [| |? ? ? ? ? A']; subst; inversion A'.
Qed.
Print Assumptions c102_refuted.

Definition ex_usual : expr :=
  e_sub (e_sub X (e_mul (e_add Y (e_of_i64 12)) (e_sin (e_neg X)))) (e_div (e_neg (e_mul X Y)) (e_pow (e_neg X) (e_add Y X))).
Definition ex_usual_neg : expr :=
  e_add (e_mul X (e_of_i64 (-3))) (e_sub (e_pow Y (e_of_i64 (-2))) (e_of_i64 (-7))).
Definition ex_usual_frac : expr :=
  e_add (e_sub (e_mul (frac 1 2) (e_pow X (I 2))) (e_div (frac 3 2) Y)) (e_mul X (e_num (mkNum (Rational (mkRat (-1) 5 7)) TNothing))).
Example c102_example :
  (usual ex_usual /\ e_to_string ex_usual = Ok "x - (y + 12) * sin(-x) - (-x * y) / (-x) ^ (y + x)") /\
  (usual ex_usual_neg /\ e_to_string ex_usual_neg = Ok "x * -3 + y ^ -2 - -7") /\
  (usual ex_usual_frac /\ e_to_string ex_usual_frac = Ok "1/2 * x ^ 2 - 3/2 / y + x * -5/7").
Proof.
  assert (Ux : usual X) by (apply U_leaf, plain_name_x).
  assert (Uy : usual Y) by (apply U_leaf, plain_name_y).
  assert (N12 : usual (e_of_i64 12)).
  { apply (U_leaf (int 12)), int_plain. lia. }
  assert (N3 : usual (e_of_i64 (-3))) by (apply U_negative; split; reflexivity).
  assert (N2 : usual (e_of_i64 (-2))) by (apply U_negative; split; reflexivity).
  assert (N7 : usual (e_of_i64 (-7))) by (apply U_negative; split; reflexivity).
  assert (I2 : usual (I 2)) by (apply (U_leaf (int 2)), int_plain; lia).
  assert (F1 : usual (frac 1 2)) by (apply U_fraction; split; [reflexivity|exists (mkRat 1 1 2); cbn; intuition lia]).
  assert (F3 : usual (frac 3 2)) by (apply U_fraction; split; [reflexivity|exists (mkRat 1 3 2); cbn; intuition lia]).
  assert (F5 : usual (e_num (mkNum (Rational (mkRat (-1) 5 7)) TNothing)))
    by (apply U_fraction; split; [reflexivity|exists (mkRat (-1) 5 7); cbn; intuition lia]).
  split; [split|split; split]; try (vm_compute; reflexivity);
    [unfold ex_usual|unfold ex_usual_neg|unfold ex_usual_frac];
    repeat first [assumption|apply U_sub|apply U_mul|apply U_add|apply U_div|apply U_neg|apply U_pow|apply (U_fn OSin); [cbn; auto| | |]];
    first [intros (t & E & I'); vm_compute in E; try discriminate E; injection E as <-; cbn in I'; intuition discriminate
      |intros (_ & r & E & _); discriminate E|cbn; tauto].
Qed.

(** ** printed Taylor expansions *)
Lemma index_usual k : 0 <= k -> usual (e_of_i64 k) /\ ~ top_in (e_of_i64 k) [ODiv] /\ ~ fraction_literal (e_of_i64 k).
Proof.
  intros L. split; [|split].
  - apply (U_leaf (Num (sn_of_i64 k))). destruct (Z.eq_dec k 0) as [->|N0]; [|destruct (Z.eq_dec k 1) as [->|N1]].
    1, 2: split; [right; right; eexists _, _; split; [reflexivity|discriminate]|]; split; [discriminate|];
      split; intros E; try discriminate E; eexists; split; reflexivity.
    replace (sn_of_i64 k) with (mkNum (Integer k) TNothing); [exact (int_plain k L)|].
    unfold sn_of_i64, sn_of_val, val_of_i64. cbn [val_is_one val_is_zero].
    apply Z.eqb_neq in N0, N1. rewrite N0, N1. reflexivity.
  - intros (t & E & _). discriminate E.
  - intros (_ & r & E & _). discriminate E.
Qed.
Lemma monomials_usual b : usual b -> ~ top_in b [ODiv; OPow] -> ~ negative_literal b -> ~ fraction_literal b ->
  forall cs k, Forall usual cs -> 0 <= k -> Forall usual (monomials b k cs).
Proof.
  intros Ub T N F. induction cs as [|c cs IH]; intros k Uc L; [constructor|]. inversion Uc as [|? ? U1 U2]; subst.
  cbn [monomials]. destruct (index_usual k ltac:(lia)) as (Uk & Tk & Fk).
  assert (Forall usual (monomials b (k + 1) cs)) as R by (apply IH; [assumption|lia]).
  destruct (is_zero c); [exact R|]. cbn [app]. constructor; [|exact R]. apply U_mul; [exact U1|]. apply U_pow; assumption.
Qed.
Lemma sum_usual ps : forall p, usual p -> Forall usual ps -> usual (sum_of p ps).
Proof.
  induction ps as [|q ps IH]; intros p U H; [exact U|]. inversion H; subst. apply (IH (e_add p q)); [apply U_add; assumption|assumption].
Qed.

(** C102: if the coefficients and x - a print the usual way, then so does the Taylor polynomial:
    what is printed before the order term reads as a sum with the value of
    sum of coefficient_k * (x-a)^k *)
Theorem c102_taylor m e x at_ n t b p ps :
  wf e -> wf at_ -> 0 <= n -> n + 2 < two63 ->
  taylor_expansion m e (e_var x) at_ n = Ok (ROk t) ->
  num_aggregate m (e_sub (e_var x) at_) = Ok b ->
  usual b -> ~ top_in b [ODiv; OPow] -> ~ negative_literal b -> ~ fraction_literal b ->
  Forall usual (ex_coef t) -> monomials b 0 (ex_coef t) = p :: ps ->
  exists s o e', expansion_to_string m t = Ok (s ++ " + O(" ++ o ++ ")")%string /\
    reads s e' /\ forall rho, eval rho e' = eval rho (sum_of p ps).
Proof.
  intros We Wa Hn Hn2 H E Ub T N F Uc M.
  destruct (c48_text m e x at_ n t b We Wa Hn Hn2 H E) as (o & _ & K). rewrite M in K. destruct K as (s & Es & Et).
  assert (Forall usual (p :: ps)) as U.
  { rewrite <- M. apply monomials_usual; auto. lia. }
  inversion U as [|? ? U1 U2]; subst.
  destruct (c102_usual _ (sum_usual ps p U1 U2)) as (s' & e' & Es' & R & V). exists s, o, e'. split; [exact Et|].
  rewrite Es in Es'. injection Es' as <-. auto.
Qed.
Print Assumptions c102_taylor.

Definition ex_cubic : expr := e_add (e_mul X (e_mul X X)) (e_mul X Y).
Example c102_taylor_example : exists t b p ps,
  taylor_expansion Debug ex_cubic X (e_of_i64 2) 2 = Ok (ROk t) /\
  num_aggregate Debug (e_sub X (e_of_i64 2)) = Ok b /\
  usual b /\ ~ top_in b [ODiv; OPow] /\ ~ negative_literal b /\ ~ fraction_literal b /\
  Forall usual (ex_coef t) /\ monomials b 0 (ex_coef t) = p :: ps /\
  expansion_to_string Debug t =
    Ok "(8 + 2 * y) / 1 * (x - 2) ^ 0 + (12 + y) / 1 * (x - 2) ^ 1 + 6/1 * (x - 2) ^ 2 + O((x - 2) ^ 3)".
Proof.
  assert (Ux : usual X) by (apply U_leaf, plain_name_x).
  assert (Uy : usual Y) by (apply U_leaf, plain_name_y).
  assert (N : forall k, 0 <= k -> usual (e_of_i64 k)) by (intros k L; apply index_usual, L).
  assert (F6 : usual (frac 6 1)) by (apply U_fraction; split; [reflexivity|exists (mkRat 1 6 1); cbn; intuition lia]).
  eexists _, (e_sub X (e_of_i64 2)), _, _.
  split; [vm_compute; reflexivity|]. split; [vm_compute; reflexivity|].
  split; [apply U_sub; [exact Ux|apply N; lia|intros (t & E & _); discriminate E]|].
  split; [intros (t & E & I'); vm_compute in E; injection E as <-; cbn in I'; intuition discriminate|].
  split; [cbn; tauto|]. split; [cbn; tauto|]. split.
  - cbn [ex_coef]. apply Forall_cons; [|apply Forall_cons; [|apply Forall_cons; [|apply Forall_nil]]].
    + apply (U_div (e_add (e_of_i64 8) (e_mul (e_of_i64 2) Y)) (e_of_i64 1)); [apply U_add; [|apply U_mul; [|exact Uy]]|..]; try (apply N; lia).
      * intros (t & E & _); discriminate E.
      * intros (_ & r & E & _); discriminate E.
    + apply (U_div (e_add (e_of_i64 12) Y) (e_of_i64 1)); [apply U_add; [|exact Uy]|..]; try (apply N; lia).
      * intros (t & E & _); discriminate E.
      * intros (_ & r & E & _); discriminate E.
    + exact F6.
  - split; [reflexivity|vm_compute; reflexivity].
Qed.
