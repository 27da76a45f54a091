(** * DispParse: printed text determines readable expressions *)
From Coq Require Import ZArith QArith List String Ascii Bool Lia.
From Coq Require Import Floats.SpecFloat.
From Verif Require Import Base Float Rational SmartNum Ast Compute Limit Display Spec SpecDisp.
From Verif Require Import BaseProofs RationalProofs NumProofs NumProofs2 TreeProofs DispProofs.
Import ListNotations.
Open Scope string_scope.

(** ** tokens *)
Inductive tok := TAtom (s : string) | TOp (t : optype) | TFun (t : optype) | TMinus | TL | TR.

Definition render1 (k : tok) : string :=
  match k with
  | TAtom s => s
  | TOp t => " " ++ symbol (gen_op t) ++ " "
  | TFun t => symbol (gen_op t)
  | TMinus => "-"
  | TL => "("
  | TR => ")"
  end.
Fixpoint render (l : list tok) : string :=
  match l with [] => "" | k :: l => render1 k ++ render l end.
Open Scope list_scope.

Lemma render_app a b : render (a ++ b) = (render a ++ render b)%string.
Proof. induction a; simpl; [reflexivity|]. now rewrite IHa, app_assoc_s. Qed.

Definition prio (t : optype) : Z := priority (gen_op t).
Definition num_text (n : snum) : string := match sn_to_string n with Ok s => s | _ => "" end.
Definition wrapt (b : bool) (l : list tok) : list tok := if b then TL :: l ++ [TR] else l.

Fixpoint toks (u : Z) (e : expr) : list tok :=
  match e with
  | Expr (Operand (Num n)) _ => [TAtom (num_text n)]
  | Expr (Operand (Var x)) _ => [TAtom x]
  | Expr (Operator op) c =>
      let t := descriptor op in
      wrapt (prio t <? u)%Z
        match map (toks (prio t)) c with
        | [a; b] => a ++ TOp t :: b
        | a :: _ => (match t with ONeg => TMinus | _ => TFun t end) :: a
        | [] => []
        end
  end.

Lemma gen_op_descr t : descriptor (gen_op t) = t.
Proof. destruct t; reflexivity. Qed.

Lemma toks_mk1 u t a : toks u (mk1 t a) =
  wrapt (prio t <? u)%Z ((match t with ONeg => TMinus | _ => TFun t end) :: toks (prio t) a).
Proof. unfold mk1. cbn [toks map]. now rewrite gen_op_descr. Qed.
Lemma toks_mk2 u t a b : toks u (mk2 t a b) =
  wrapt (prio t <? u)%Z (toks (prio t) a ++ TOp t :: toks (prio t) b).
Proof. unfold mk2. cbn [toks map]. now rewrite gen_op_descr. Qed.

Lemma render_wrapt b l : render (wrapt b l) = parens b (render l).
Proof.
  destruct b; [|reflexivity]. simpl. rewrite render_app. reflexivity.
Qed.

(** tokens are what is printed *)
Lemma toks_render e : readable e -> forall u, to_string_raw u e = Ok (render (toks u e)).
Proof.
  induction 1 as [n Hn|x Hx|t a Ht Ha IHa|t a b Ht Ha IHa Hb IHb Hr]; intros u.
  - rewrite raw_num. simpl. rewrite app_nil_s. unfold num_text.
    destruct (sn_to_string_ok n) as [s ->]. reflexivity.
  - rewrite raw_var. simpl. now rewrite app_nil_s.
  - rewrite (raw_mk1 u t a _ (IHa _)), toks_mk1, render_wrapt.
    f_equal. f_equal. destruct t; try discriminate Ht; reflexivity.
  - rewrite (raw_mk2 u t a b _ _ (IHa _) (IHb _)), toks_mk2, render_wrapt.
    f_equal. f_equal. rewrite render_app. cbn [render render1].
    rewrite !app_assoc_s. reflexivity.
Qed.

(** ** parenthesis depth *)
Fixpoint dep (n : nat) (l : list tok) : option nat :=
  match l with
  | [] => Some n
  | TL :: l => dep (S n) l
  | TR :: l => match n with O => None | S k => dep k l end
  | _ :: l => dep n l
  end.

Lemma dep_app n a b : dep n (a ++ b) = match dep n a with Some k => dep k b | None => None end.
Proof.
  revert n. induction a as [|k a IH]; intros n; [reflexivity|].
  destruct k; simpl; try apply IH. destruct n; [reflexivity|apply IH].
Qed.

Lemma dep_shift n k l j : dep n l = Some j -> dep (k + n) l = Some (k + j)%nat.
Proof.
  revert n. induction l as [|x l IH]; intros n; simpl; [now intros [= ->]|].
  destruct x; try apply IH.
  - intros H. apply IH in H. now rewrite Nat.add_succ_r in H.
  - destruct n; [discriminate|]. intros H. apply IH in H. now rewrite Nat.add_succ_r.
Qed.

Lemma dep_wrapt b l : dep 0 l = Some O -> dep 0 (wrapt b l) = Some O.
Proof.
  intros H. destruct b; [|exact H]. simpl. rewrite dep_app.
  pose proof (dep_shift 0 1 l 0 H) as K. simpl in K. rewrite K. reflexivity.
Qed.

Lemma toks_dep e : readable e -> forall u, dep 0 (toks u e) = Some O.
Proof.
  induction 1 as [n Hn|x Hx|t a Ht Ha IHa|t a b Ht Ha IHa Hb IHb Hr]; intros u; try reflexivity.
  - rewrite toks_mk1. apply dep_wrapt. destruct t; apply IHa.
  - rewrite toks_mk2. apply dep_wrapt. rewrite dep_app, IHa. apply IHb.
Qed.

(** every operator outside all parentheses has priority at least [p] *)
Definition tops_ge (p : Z) (l : list tok) : Prop :=
  forall x t y, l = x ++ TOp t :: y -> dep 0 x = Some O -> (p <= prio t)%Z.

Lemma tops_wrapt b l p : dep 0 l = Some O -> (b = false -> tops_ge p l) -> tops_ge p (wrapt b l).
Proof.
  intros D H. destruct b; [|now apply H].
  intros x t y E Dx. exfalso. destruct x as [|k x]; [discriminate E|].
  injection E as <- E. simpl in Dx.
  (* x is a prefix of l ++ [TR], strictly shorter *)
  assert (P : exists z, l = x ++ z).
  { clear -E. revert x E. induction l as [|k l IH]; intros x E.
    - destruct x as [|k x]; [now exists []|]. simpl in E. injection E as _ E.
      destruct x; discriminate E.
    - destruct x as [|k' x]; [now exists (k :: l)|]. simpl in E. injection E as <- E.
      destruct (IH x E) as [z ->]. now exists z. }
  destruct P as [z ->]. rewrite dep_app in D. destruct (dep 0 x) as [j|] eqn:E0; [|discriminate D].
  pose proof (dep_shift 0 1 x j E0) as K. simpl in K. rewrite K in Dx. discriminate Dx.
Qed.

Lemma tops_app p a t b : dep 0 a = Some O -> tops_ge p a -> (p <= prio t)%Z -> tops_ge p b ->
  tops_ge p (a ++ TOp t :: b).
Proof.
  intros Da Ha Ht Hb x s y E Dx.
  (* compare positions *)
  revert a x Da Ha E Dx.
  assert (G : forall a x, a ++ TOp t :: b = x ++ TOp s :: y ->
     (exists z, a = x ++ TOp s :: z) \/ (a = x /\ s = t) \/ (exists z, x = a ++ TOp t :: z /\ b = z ++ TOp s :: y)).
  { induction a as [|k a IH]; intros x E.
    - destruct x as [|k x]; simpl in E; injection E as E1 E2.
      + right; left. auto.
      + right; right. exists x. subst. auto.
    - destruct x as [|k' x]; simpl in E; injection E as E1 E2.
      + left. exists a. now subst.
      + subst k'. destruct (IH x E2) as [[z ->]|[[-> ->]|[z [-> ->]]]].
        * left. now exists z.
        * right; left. auto.
        * right; right. now exists z. }
  intros a x Da Ha E Dx. destruct (G a x E) as [[z Ez]|[[_ ->]|[z [Ez Eb]]]].
  - apply (Ha x s z Ez Dx).
  - exact Ht.
  - apply (Hb z s y Eb). rewrite Ez, dep_app, Da in Dx. exact Dx.
Qed.

Lemma tops_cons p k l : (match k with TMinus | TFun _ | TAtom _ => True | _ => False end) ->
  tops_ge p l -> tops_ge p (k :: l).
Proof.
  intros Hk H x t y E D. destruct x as [|k' x]; injection E as E1 E2.
  - subst k. elim Hk.
  - subst k'. apply (H x t y E2). destruct k; try elim Hk; exact D.
Qed.

Lemma tops_le p q l : (p <= q)%Z -> tops_ge q l -> tops_ge p l.
Proof. intros L H x t y E D. specialize (H x t y E D). lia. Qed.

Lemma toks_tops e : readable e -> forall u, tops_ge u (toks u e).
Proof.
  induction 1 as [n Hn|x Hx|t a Ht Ha IHa|t a b Ht Ha IHa Hb IHb Hr]; intros u.
  - intros y t z E _. destruct y as [|? [|? ?]]; discriminate E.
  - intros y t z E _. destruct y as [|? [|? ?]]; discriminate E.
  - rewrite toks_mk1. apply tops_wrapt.
    + destruct t; apply (toks_dep a Ha).
    + intros L. apply Z.ltb_ge in L. apply (tops_le u (prio t)); [assumption|].
      apply tops_cons; [destruct t; exact I|]. apply IHa.
  - rewrite toks_mk2. apply tops_wrapt.
    + rewrite dep_app, toks_dep by assumption. now apply toks_dep.
    + intros L. apply Z.ltb_ge in L. apply (tops_le u (prio t)); [assumption|].
      apply tops_app; auto using toks_dep. lia.
Qed.

Lemma binds_descr t : binds (descriptor (gen_op t)) = binds t.
Proof. destruct t; reflexivity. Qed.
Lemma binds_prio t : binds (descriptor (gen_op t)) = prio t.
Proof. destruct t; reflexivity. Qed.
(** the right operand only shows operators that bind strictly tighter *)
Lemma toks_tops_right b p : readable b -> (1 <= p)%Z ->
  (forall op c, b = Expr (Operator op) c -> binds (descriptor op) <> p) -> tops_ge (p + 1) (toks p b).
Proof.
  intros R Hp H. destruct R as [n Hn|x Hx|t a Ht Ha|t a b Ht Ha Hb Hr].
  - intros y t z E _. destruct y as [|? [|? ?]]; discriminate E.
  - intros y t z E _. destruct y as [|? [|? ?]]; discriminate E.
  - specialize (H _ _ eq_refl). rewrite binds_prio in H.
    rewrite toks_mk1. apply tops_wrapt; [destruct t; apply (toks_dep a Ha)|].
    intros L. apply Z.ltb_ge in L. apply (tops_le _ (prio t)); [lia|].
    apply tops_cons; [destruct t; exact I|]. now apply toks_tops.
  - specialize (H _ _ eq_refl). rewrite binds_prio in H.
    rewrite toks_mk2. apply tops_wrapt.
    + rewrite dep_app, toks_dep by assumption. now apply toks_dep.
    + intros L. apply Z.ltb_ge in L. apply (tops_le _ (prio t)); [lia|].
      apply tops_app; auto using toks_dep, toks_tops. lia.
Qed.

(** the root operator is the last one of lowest priority *)
Lemma split_at_root a1 t1 b1 a2 t2 b2 :
  dep 0 a1 = Some O -> dep 0 a2 = Some O ->
  tops_ge (prio t1) a1 -> tops_ge (prio t2) a2 ->
  tops_ge (prio t1 + 1) b1 -> tops_ge (prio t2 + 1) b2 ->
  a1 ++ TOp t1 :: b1 = a2 ++ TOp t2 :: b2 -> a1 = a2 /\ t1 = t2 /\ b1 = b2.
Proof.
  intros D1 D2 A1 A2 B1 B2 E.
  assert (G : forall a x, a ++ TOp t1 :: b1 = x ++ TOp t2 :: b2 ->
     (exists z, a = x ++ TOp t2 :: z /\ b2 = z ++ TOp t1 :: b1) \/ (a = x /\ t1 = t2 /\ b1 = b2) \/
     (exists z, x = a ++ TOp t1 :: z /\ b1 = z ++ TOp t2 :: b2)).
  { induction a as [|k a IH]; intros x E0.
    - destruct x as [|k x]; simpl in E0; injection E0 as E1 E2.
      + right; left. auto.
      + right; right. exists x. subst. auto.
    - destruct x as [|k' x]; simpl in E0; injection E0 as E1 E2.
      + left. exists a. subst. auto.
      + subst k'. destruct (IH x E2) as [[z [-> ->]]|[[-> [-> ->]]|[z [-> ->]]]].
        * left. now exists z.
        * right; left. auto.
        * right; right. now exists z. }
  destruct (G a1 a2 E) as [[z [Ea Eb]]|[H|[z [Ea Eb]]]]; [exfalso|exact H|exfalso].
  - pose proof (A1 a2 t2 z Ea D2) as L1.
    assert (Dz : dep 0 z = Some O) by (rewrite Ea, dep_app, D2 in D1; exact D1).
    pose proof (B2 z t1 b1 Eb Dz). lia.
  - pose proof (A2 a1 t1 z Ea D1) as L1.
    assert (Dz : dep 0 z = Some O) by (rewrite Ea, dep_app, D1 in D2; exact D2).
    pose proof (B1 z t2 b2 Eb Dz). lia.
Qed.

(** ** unparenthesised bodies *)
Lemma no_top_in_parens l x t y : dep 0 l = Some O -> TL :: l ++ [TR] = x ++ TOp t :: y ->
  dep 0 x = Some O -> False.
Proof.
  intros D E Dx.
  pose proof (tops_wrapt true l (prio t + 1) D ltac:(discriminate) x t y E Dx). lia.
Qed.

Lemma prio_bin t : arity t = 2%nat -> (2 <= prio t <= 4)%Z.
Proof. destruct t; try discriminate; intros _; cbv; split; discriminate. Qed.

Lemma toks_head_not_minus e u : readable e -> (2 <= u)%Z ->
  match toks u e with TMinus :: _ => False | _ => True end.
Proof.
  intros R. revert u.
  induction R as [n Hn|x Hx|t a Ht Ha IHa|t a b Ht Ha IHa Hb IHb Hr]; intros u Hu; try exact I.
  - rewrite toks_mk1. destruct (prio t <? u)%Z eqn:L; [exact I|].
    destruct t; try exact I; try discriminate Ht.
    apply Z.ltb_ge in L. change (prio ONeg) with 1%Z in L. lia.
  - rewrite toks_mk2. destruct (prio t <? u)%Z eqn:L; [exact I|].
    pose proof (prio_bin t Ht). specialize (IHa (prio t) ltac:(lia)). cbn [wrapt].
    destruct (toks (prio t) a); [exact I|exact IHa].
Qed.

Lemma toks_nonempty e u : readable e -> toks u e <> [].
Proof.
  intros R. destruct R as [n Hn|x Hx|t a Ht Ha|t a b Ht Ha Hb Hr]; try discriminate.
  - rewrite toks_mk1. destruct (prio t <? u)%Z; discriminate.
  - rewrite toks_mk2. destruct (prio t <? u)%Z; [discriminate|]. cbn [wrapt].
    destruct (toks (prio t) a); discriminate.
Qed.

Lemma wrapt_inj l l' : TL :: l ++ [TR] = TL :: l' ++ [TR] -> l = l'.
Proof. intros E. injection E as E. now apply app_inj_tail in E. Qed.

(** leaves: kinds cannot be confused *)
Lemma plain_name_not_number x n : plain_name x -> plain_number n -> num_text n <> x.
Proof.
  intros (_ & (c & t & -> & Dc & _) & _ & Np & Ne) Hn E. unfold num_text in E.
  destruct Hn as [Hn|[Hn|(d & r & Hn & Hd)]].
  - unfold sn_to_string in E. rewrite Hn in E. simpl in E. now apply Np.
  - unfold sn_to_string in E. rewrite Hn in E. simpl in E. now apply Ne.
  - rewrite Hn in E. injection E as -> ->. now apply Hd.
Qed.

Lemma body_cases u t (b : bool) l l' : b = (prio t <? u)%Z -> wrapt b l = l' ->
  (b = true /\ l' = TL :: l ++ [TR]) \/ (b = false /\ l' = l).
Proof. intros _ <-. destruct b; auto. Qed.

Lemma un_tok_eq t t' : (match t with ONeg => TMinus | _ => TFun t end) =
  (match t' with ONeg => TMinus | _ => TFun t' end) -> t = t'.
Proof. destruct t, t'; intros H; try reflexivity; discriminate H || (injection H; discriminate). Qed.

Theorem toks_inj e1 : readable e1 -> forall e2 u, readable e2 -> toks u e1 = toks u e2 ->
  same_text e1 e2.
Proof.
  induction 1 as [n Hn|x Hx|t a Ht Ha IHa|t a b Ht Ha IHa Hb IHb Hr]; intros e2 u R2 E.
  - destruct R2 as [n' Hn'|x' Hx'|t' a' Ht' Ha'|t' a' b' Ht' Ha' Hb' Hr'].
    + simpl in E. injection E as E. apply St_num. unfold num_text in E.
      destruct (sn_to_string_ok n) as [s Es], (sn_to_string_ok n') as [s' Es'].
      rewrite Es, Es' in *. now subst.
    + simpl in E. injection E as E. exfalso. eapply plain_name_not_number; eassumption.
    + exfalso. rewrite toks_mk1 in E. simpl in E. destruct (prio t' <? u)%Z; [discriminate E|].
      simpl in E. injection E as E1 E2. destruct t'; discriminate E1.
    + exfalso. rewrite toks_mk2 in E. simpl in E. destruct (prio t' <? u)%Z; [discriminate E|].
      simpl in E. pose proof (toks_nonempty a' (prio t') Ha').
      destruct (toks (prio t') a') as [|k [|k' l]]; try congruence; discriminate E.
  - destruct R2 as [n' Hn'|x' Hx'|t' a' Ht' Ha'|t' a' b' Ht' Ha' Hb' Hr'].
    + simpl in E. injection E as E. exfalso.
      exact (plain_name_not_number x n' Hx Hn' (eq_sym E)).
    + simpl in E. injection E as <-. apply St_var.
    + exfalso. rewrite toks_mk1 in E. simpl in E. destruct (prio t' <? u)%Z; [discriminate E|].
      simpl in E. injection E as E1 E2. destruct t'; discriminate E1.
    + exfalso. rewrite toks_mk2 in E. simpl in E. destruct (prio t' <? u)%Z; [discriminate E|].
      simpl in E. pose proof (toks_nonempty a' (prio t') Ha').
      destruct (toks (prio t') a') as [|k [|k' l]]; try congruence; discriminate E.
  - (* unary *)
    rewrite toks_mk1 in E.
    destruct R2 as [n' Hn'|x' Hx'|t' a' Ht' Ha'|t' a' b' Ht' Ha' Hb' Hr'].
    + exfalso. simpl in E. destruct (prio t <? u)%Z; [discriminate E|].
      simpl in E. injection E as E1 E2. destruct t; discriminate E1.
    + exfalso. simpl in E. destruct (prio t <? u)%Z; [discriminate E|].
      simpl in E. injection E as E1 E2. destruct t; discriminate E1.
    + rewrite toks_mk1 in E.
      assert (K : (match t with ONeg => TMinus | _ => TFun t end) :: toks (prio t) a =
                  (match t' with ONeg => TMinus | _ => TFun t' end) :: toks (prio t') a').
      { destruct (prio t <? u)%Z, (prio t' <? u)%Z; cbn [wrapt] in E.
        - now apply wrapt_inj in E.
        - injection E as E _. destruct t'; discriminate E.
        - injection E as E _. destruct t; discriminate E.
        - exact E. }
      injection K as K1 K2. apply un_tok_eq in K1. subst t'. apply St_un.
      eapply IHa; eassumption.
    + exfalso. rewrite toks_mk2 in E. pose proof (prio_bin t' Ht') as P.
      assert (D' : dep 0 (toks (prio t') a') = Some O) by (now apply toks_dep).
      assert (K : (match t with ONeg => TMinus | _ => TFun t end) :: toks (prio t) a =
                  toks (prio t') a' ++ TOp t' :: toks (prio t') b').
      { destruct (prio t <? u)%Z eqn:L, (prio t' <? u)%Z eqn:L'; cbn [wrapt] in E.
        - now apply wrapt_inj in E.
        - exfalso. eapply no_top_in_parens in E; [exact E| |exact D'].
          destruct t; apply (toks_dep a Ha).
        - injection E as E _. destruct t; discriminate E.
        - exact E. }
      destruct t; try discriminate Ht.
      * (* minus *) pose proof (toks_head_not_minus a' (prio t') Ha' ltac:(lia)) as M.
        pose proof (toks_nonempty a' (prio t') Ha') as N.
        destruct (toks (prio t') a') as [|k l]; [congruence|]. injection K as <- _. exact M.
      * pose proof (tops_cons 5 (TFun OSin) _ I (toks_tops a Ha 5) _ _ _ K D'). lia.
      * pose proof (tops_cons 5 (TFun OCos) _ I (toks_tops a Ha 5) _ _ _ K D'). lia.
      * pose proof (tops_cons 5 (TFun OExp) _ I (toks_tops a Ha 5) _ _ _ K D'). lia.
      * pose proof (tops_cons 5 (TFun OLn) _ I (toks_tops a Ha 5) _ _ _ K D'). lia.
  - (* binary *)
    rewrite toks_mk2 in E. pose proof (prio_bin t Ht) as P.
    assert (D : dep 0 (toks (prio t) a) = Some O) by (now apply toks_dep).
    assert (Dl : dep 0 (toks (prio t) a ++ TOp t :: toks (prio t) b) = Some O).
    { rewrite dep_app, D. now apply toks_dep. }
    destruct R2 as [n' Hn'|x' Hx'|t' a' Ht' Ha'|t' a' b' Ht' Ha' Hb' Hr'].
    + exfalso. simpl in E. destruct (prio t <? u)%Z; [discriminate E|].
      simpl in E. pose proof (toks_nonempty a (prio t) Ha).
      destruct (toks (prio t) a) as [|k [|k' l]]; try congruence; discriminate E.
    + exfalso. simpl in E. destruct (prio t <? u)%Z; [discriminate E|].
      simpl in E. pose proof (toks_nonempty a (prio t) Ha).
      destruct (toks (prio t) a) as [|k [|k' l]]; try congruence; discriminate E.
    + exfalso. rewrite toks_mk1 in E.
      assert (K : (match t' with ONeg => TMinus | _ => TFun t' end) :: toks (prio t') a' =
                  toks (prio t) a ++ TOp t :: toks (prio t) b).
      { destruct (prio t <? u)%Z eqn:L, (prio t' <? u)%Z eqn:L'; cbn [wrapt] in E.
        - symmetry. now apply wrapt_inj in E.
        - injection E as E _. destruct t'; discriminate E.
        - exfalso. symmetry in E. eapply no_top_in_parens in E; [exact E| |exact D].
          destruct t'; apply (toks_dep a' Ha').
        - now symmetry. }
      destruct t'; try discriminate Ht'.
      * pose proof (toks_head_not_minus a (prio t) Ha ltac:(lia)) as M.
        pose proof (toks_nonempty a (prio t) Ha) as N.
        destruct (toks (prio t) a) as [|k l]; [congruence|]. injection K as <- _. exact M.
      * pose proof (tops_cons 5 (TFun OSin) _ I (toks_tops a' Ha' 5) _ _ _ K D). lia.
      * pose proof (tops_cons 5 (TFun OCos) _ I (toks_tops a' Ha' 5) _ _ _ K D). lia.
      * pose proof (tops_cons 5 (TFun OExp) _ I (toks_tops a' Ha' 5) _ _ _ K D). lia.
      * pose proof (tops_cons 5 (TFun OLn) _ I (toks_tops a' Ha' 5) _ _ _ K D). lia.
    + rewrite toks_mk2 in E. pose proof (prio_bin t' Ht') as P'.
      assert (D' : dep 0 (toks (prio t') a') = Some O) by (now apply toks_dep).
      assert (K : toks (prio t) a ++ TOp t :: toks (prio t) b =
                  toks (prio t') a' ++ TOp t' :: toks (prio t') b').
      { destruct (prio t <? u)%Z eqn:L, (prio t' <? u)%Z eqn:L'; cbn [wrapt] in E.
        - now apply wrapt_inj in E.
        - exfalso. eapply no_top_in_parens in E; [exact E|exact Dl|exact D'].
        - exfalso. symmetry in E. eapply no_top_in_parens in E; [exact E| |exact D].
          rewrite dep_app, D'. now apply toks_dep.
        - exact E. }
      apply split_at_root in K; auto using toks_tops.
      * destruct K as (K1 & <- & K3). apply St_bin; [eapply IHa|eapply IHb]; eassumption.
      * apply toks_tops_right; [assumption|lia|rewrite <- binds_prio, binds_descr; exact Hr].
      * apply toks_tops_right; [assumption|lia|rewrite <- binds_prio, binds_descr; exact Hr'].
Qed.

(** ** from text to tokens *)
Definition fnames : list string := ["sin"; "cos"; "exp"; "ln"].
Definition atom_text (s : string) : Prop :=
  word_chars s /\ (exists c t, s = String c t /\ c <> "-"%char) /\
  (forall f, In f fnames -> prefix f s = false).

Definition is_fun (t : optype) : bool :=
  match t with OSin | OCos | OExp | OLn => true | _ => false end.

(** [b = true]: an operand is expected; [b = false]: one has just been read *)
Fixpoint lexwf (b : bool) (l : list tok) : Prop :=
  match l, b with
  | [], b => b = false
  | TAtom s :: l, true => atom_text s /\ lexwf false l
  | TFun t :: l, true => is_fun t = true /\ lexwf true l
  | TMinus :: l, true => lexwf true l
  | TL :: l, true => lexwf true l
  | TR :: l, false => lexwf false l
  | TOp t :: l, false => arity t = 2%nat /\ lexwf true l
  | _, _ => False
  end.

Definition stop (r : string) : Prop :=
  r = "" \/ (exists t, r = String " " t) \/ (exists t, r = String ")" t).

Lemma lexwf_stop l : lexwf false l -> stop (render l).
Proof.
  destruct l as [|k l]; intros H; [now left|]. destruct k; try elim H.
  - right; left. cbn [render render1 append]. eauto.
  - right; right. cbn [render render1 append]. eauto.
Qed.

Lemma word_stop_split s : forall s' r r', word_chars s -> word_chars s' -> stop r -> stop r' ->
  (s ++ r = s' ++ r')%string -> s = s' /\ r = r'.
Proof.
  induction s as [|c s IH]; intros s' r r' W W' S S' E.
  - destruct s' as [|c' s']; [auto|]. exfalso. simpl in E. subst r.
    destruct W' as (W1 & W2 & W3 & _).
    destruct S as [S|[[t S]|[t S]]]; try discriminate S; injection S as -> _; congruence.
  - destruct s' as [|c' s'].
    + exfalso. simpl in E. subst r'. destruct W as (W1 & W2 & W3 & _).
      destruct S' as [S'|[[t S']|[t S']]]; try discriminate S'; injection S' as -> _; congruence.
    + simpl in E. injection E as <- E. destruct W as (_ & _ & _ & W). destruct W' as (_ & _ & _ & W').
      destruct (IH s' r r' W W' S S' E) as [-> ->]. auto.
Qed.

Lemma prefix_of_word f : forall s r r', word_chars f -> stop r -> (s ++ r = f ++ r')%string ->
  prefix f s = true.
Proof.
  induction f as [|c f IH]; intros s r r' W S E; [now destruct s|].
  destruct W as (W1 & W2 & W3 & W).
  destruct s as [|d s].
  - exfalso. simpl in E. subst r.
    destruct S as [S|[[t S]|[t S]]]; try discriminate S; injection S as -> _; congruence.
  - simpl in E. injection E as -> E. simpl. destruct (ascii_dec c c); [|congruence].
    eapply IH; eassumption.
Qed.

Lemma fun_word t : is_fun t = true -> word_chars (symbol (gen_op t)) /\ In (symbol (gen_op t)) fnames.
Proof.
  destruct t; intros H; try discriminate H; simpl; repeat split; try discriminate; tauto.
Qed.

Lemma atom_not_fun s t l r : atom_text s -> is_fun t = true -> stop r ->
  (s ++ r = symbol (gen_op t) ++ l)%string -> False.
Proof.
  intros (_ & _ & P) Ht S E. destruct (fun_word t Ht) as [W I].
  specialize (P _ I). rewrite (prefix_of_word _ _ _ _ W S E) in P. discriminate P.
Qed.

Lemma atom_head s r c x : atom_text s -> (s ++ r = String c x)%string ->
  c <> "-"%char /\ c <> "("%char.
Proof.
  intros (W & (d & t & -> & D) & _) E. simpl in E. injection E as <- _.
  destruct W as (_ & W & _). auto.
Qed.

Lemma fun_head t : is_fun t = true -> exists c x, symbol (gen_op t) = String c x /\
  c <> "-"%char /\ c <> "("%char.
Proof. destruct t; intros H; try discriminate H; repeat eexists; discriminate. Qed.

Lemma fun_eq t t' r r' : is_fun t = true -> is_fun t' = true ->
  (symbol (gen_op t) ++ r = symbol (gen_op t') ++ r')%string -> t = t' /\ r = r'.
Proof.
  destruct t, t'; intros H H' E; try discriminate H; try discriminate H'; try discriminate E;
    simpl in E; injection E as E; auto.
Qed.

Lemma op_eq t t' r r' : arity t = 2%nat -> arity t' = 2%nat ->
  (render1 (TOp t) ++ r = render1 (TOp t') ++ r')%string -> t = t' /\ r = r'.
Proof.
  destruct t, t'; intros H H' E; try discriminate H; try discriminate H'; try discriminate E;
    simpl in E; injection E as E; auto.
Qed.

Lemma op_head t r : arity t = 2%nat -> exists x, (render1 (TOp t) ++ r)%string = String " " x.
Proof. intros _. simpl. eauto. Qed.

Theorem render_inj l : forall b l', lexwf b l -> lexwf b l' -> render l = render l' -> l = l'.
Proof.
  induction l as [|k l IH]; intros b l' W W' E.
  - simpl in W. subst b. destruct l' as [|k' l']; [reflexivity|].
    destruct k'; try elim W'; discriminate E.
  - destruct l' as [|k' l'].
    { simpl in W'. subst b. destruct k; try elim W; discriminate E. }
    cbn [render] in E.
    destruct b, k, k'; try (exfalso; exact W); try (exfalso; exact W'); cbn [lexwf] in W, W'.
    + (* atom atom *) destruct W as [A W], W' as [A' W'].
      destruct (word_stop_split s s0 _ _ (proj1 A) (proj1 A') (lexwf_stop _ W) (lexwf_stop _ W') E)
        as [-> E2].
      f_equal. eapply IH; eassumption.
    + exfalso. destruct W as [A W], W' as [A' W'].
      eapply atom_not_fun; [exact A|exact A'|exact (lexwf_stop _ W)|exact E].
    + exfalso. destruct W as [A W]. now destruct (atom_head _ _ _ _ A E).
    + exfalso. destruct W as [A W]. now destruct (atom_head _ _ _ _ A E).
    + exfalso. destruct W as [A W], W' as [A' W'].
      eapply atom_not_fun; [exact A'|exact A|exact (lexwf_stop _ W')|symmetry; exact E].
    + destruct W as [A W], W' as [A' W'].
      destruct (fun_eq _ _ _ _ A A' E) as [-> E2]. f_equal. eapply IH; eassumption.
    + exfalso. destruct W as [A W]. destruct (fun_head t A) as (c & x & F & N1 & N2).
      cbn [render1] in E. rewrite F in E. simpl in E. injection E as E _. congruence.
    + exfalso. destruct W as [A W]. destruct (fun_head t A) as (c & x & F & N1 & N2).
      cbn [render1] in E. rewrite F in E. simpl in E. injection E as E _. congruence.
    + exfalso. destruct W' as [A W']. symmetry in E. now destruct (atom_head _ _ _ _ A E).
    + exfalso. destruct W' as [A W']. destruct (fun_head t A) as (c & x & F & N1 & N2).
      cbn [render1] in E. rewrite F in E. simpl in E. injection E as E _. congruence.
    + simpl in E. injection E as E. f_equal. eapply IH; eassumption.
    + simpl in E. discriminate E.
    + exfalso. destruct W' as [A W']. symmetry in E. now destruct (atom_head _ _ _ _ A E).
    + exfalso. destruct W' as [A W']. destruct (fun_head t A) as (c & x & F & N1 & N2).
      cbn [render1] in E. rewrite F in E. simpl in E. injection E as E _. congruence.
    + simpl in E. discriminate E.
    + simpl in E. injection E as E. f_equal. eapply IH; eassumption.
    + destruct W as [A W], W' as [A' W'].
      destruct (op_eq _ _ _ _ A A' E) as [-> E2]. f_equal. eapply IH; eassumption.
    + discriminate E.
    + discriminate E.
    + simpl in E. injection E as E. f_equal. eapply IH; eassumption.
Qed.

(** ** the tokens of a readable expression are lexically well formed *)
Lemma digit_not_fun c t f : digit_value c <> None -> In f fnames -> prefix f (String c t) = false.
Proof.
  intros D I. assert (H : forall d u, f = String d u -> digit_value d = None).
  { simpl in I. destruct I as [<-|[<-|[<-|[<-|[]]]]]; intros d u [= <- _]; reflexivity. }
  destruct f as [|d u]; [simpl in I; decompose [or] I; discriminate + contradiction|].
  specialize (H d u eq_refl). simpl. destruct (ascii_dec d c); [congruence|reflexivity].
Qed.

Lemma word_app s t : word_chars s -> word_chars t -> word_chars (s ++ t)%string.
Proof. induction s; simpl; tauto. Qed.
Lemma digits_word s acc z : digits_from acc s = Some z -> word_chars s.
Proof.
  revert acc. induction s as [|c s IH]; intros acc; [now intros|]. cbn [digits_from].
  destruct (digit_value c) eqn:D; [|discriminate]. intros H. split; [|split; [|split]].
  - intros ->. discriminate D.
  - intros ->. discriminate D.
  - intros ->. discriminate D.
  - now apply (IH _ H).
Qed.
Lemma string_of_Z_word z : word_chars (string_of_Z z).
Proof.
  destruct (Z.le_gt_cases 0 z) as [H|H].
  - destruct (numeral_nonneg z H) as [_ D]. eapply digits_word, D.
  - rewrite string_of_neg by assumption. apply word_app; [simpl; repeat split; discriminate|].
    destruct (numeral_nonneg (-z) ltac:(lia)) as [_ D]. eapply digits_word, D.
Qed.
Lemma fixed3_word k : word_chars (fixed3 k).
Proof.
  unfold fixed3, digit. repeat apply word_app; try apply string_of_Z_word.
  simpl; repeat split; discriminate.
Qed.
Lemma sn_word n s : sn_to_string n = Ok s -> word_chars s.
Proof.
  unfold sn_to_string. destruct (ntag n); simpl; intros [= <-];
    try (simpl; repeat split; discriminate).
  destruct (nval n) as [z|r|f]; simpl.
  - apply string_of_Z_word.
  - unfold rat_to_string. repeat apply word_app; try apply string_of_Z_word.
    + destruct (rsign r =? 1)%Z; simpl; repeat split; discriminate.
    + simpl; repeat split; discriminate.
  - destruct f as [s|s| |s m e]; simpl.
    + apply word_app; [destruct s; simpl; repeat split; discriminate|apply fixed3_word].
    + destruct s; simpl; repeat split; discriminate.
    + repeat split; discriminate.
    + apply word_app; [destruct s; simpl; repeat split; discriminate|apply fixed3_word].
Qed.

Lemma plain_number_atom n : plain_number n -> atom_text (num_text n).
Proof.
  intros [H|[H|(c & t & H & D)]].
  - unfold num_text, sn_to_string. rewrite H. simpl. split; [repeat split; discriminate|]. split.
    + repeat eexists. discriminate.
    + simpl. intros f F. decompose [or] F; subst; try reflexivity; contradiction.
  - unfold num_text, sn_to_string. rewrite H. simpl. split; [repeat split; discriminate|]. split.
    + repeat eexists. discriminate.
    + simpl. intros f F. decompose [or] F; subst; try reflexivity; contradiction.
  - unfold num_text. rewrite H. split; [apply (sn_word n), H|]. split.
    + exists c, t. split; [reflexivity|]. intros ->. now apply D.
    + intros f. now apply digit_not_fun.
Qed.

Lemma plain_name_atom x : plain_name x -> atom_text x.
Proof.
  intros (W & (c & t & E & _ & N) & F & _). split; [assumption|]. split; [eauto|assumption].
Qed.

Lemma lexwf_un t l : arity t = 1%nat -> lexwf true l ->
  lexwf true ((match t with ONeg => TMinus | _ => TFun t end) :: l).
Proof. destruct t; intros H W; try discriminate H; simpl; auto. Qed.

Lemma toks_lexwf e : readable e -> forall u rest, lexwf false rest -> lexwf true (toks u e ++ rest).
Proof.
  assert (V : forall b l, (forall rest, lexwf false rest -> lexwf true (l ++ rest)) ->
     forall rest, lexwf false rest -> lexwf true (wrapt b l ++ rest)).
  { intros b l H rest W. destruct b; [|now apply H]. cbn [wrapt app lexwf].
    rewrite <- app_assoc. apply H. exact W. }
  induction 1 as [n Hn|x Hx|t a Ht Ha IHa|t a b Ht Ha IHa Hb IHb Hr]; intros u rest W.
  - split; [now apply plain_number_atom|exact W].
  - split; [now apply plain_name_atom|exact W].
  - rewrite toks_mk1. apply V; [|exact W]. intros r Wr. simpl app.
    apply lexwf_un; [assumption|]. now apply IHa.
  - rewrite toks_mk2. apply V; [|exact W]. intros r Wr. rewrite <- app_assoc.
    apply IHa. split; [assumption|]. now apply IHb.
Qed.

(** ** the printed text of a readable expression determines it *)
Theorem readable_text_inj e1 e2 : readable e1 -> readable e2 ->
  e_to_string e1 = e_to_string e2 -> same_text e1 e2.
Proof.
  intros R1 R2 E. unfold e_to_string in E.
  rewrite (toks_render e1 R1 0), (toks_render e2 R2 0) in E. injection E as E.
  apply (toks_inj e1 R1 e2 0%Z R2). apply (render_inj _ true).
  - rewrite <- (app_nil_r (toks 0 e1)). apply toks_lexwf; [assumption|reflexivity].
  - rewrite <- (app_nil_r (toks 0 e2)). apply toks_lexwf; [assumption|reflexivity].
  - exact E.
Qed.
