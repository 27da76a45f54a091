(** * PropsSession2: C96, renaming the variables of a whole program *)
From Coq Require Import ZArith List String Bool Lia.
From Verif Require Import Base Float Rational SmartNum Ast Compute Limit Display Main Direct.
From Verif Require Import Spec SpecTree SpecShape SpecDirect SpecSession SpecSession2.
From Verif Require Import BaseProofs NumProofs TreeProofs TreeProofs2 TreeProofs3 PropsTree PropsShape PropsDisp.
Import ListNotations.
Local Open Scope Z_scope.
Local Open Scope res_scope.

Section Rename.
Variable s : string -> string.
Definition any {A B} (_ : A) (_ : B) : Prop := True.

Lemma agree_bind {A B C D} (R : A -> B -> Prop) (Q : C -> D -> Prop) r1 r2 k1 k2 :
  agree R r1 r2 -> (forall a b, R a b -> agree Q (k1 a) (k2 b)) -> agree Q (bind r1 k1) (bind r2 k2).
Proof. intros H K. destruct r1, r2; cbn in *; try contradiction; auto. Qed.
Lemma agree_on_ok {A B C} (f : A -> B) (Q : C -> C -> Prop) r k1 k2 :
  (forall a, r = Ok a -> agree Q (k1 a) (k2 (f a))) -> agree Q (bind r k1) (bind (on_ok f r) k2).
Proof. intros K. destruct r; cbn [on_ok bind]; try exact I. apply K. reflexivity. Qed.
Lemma agree_refl {A} (R : A -> A -> Prop) r : (forall a, R a a) -> agree R r r.
Proof. intros H. destruct r; cbn; auto. Qed.

(** printing succeeds or fails alike *)
Lemma str_ren e : forall u, agree (@any string string) (to_string_raw u e) (to_string_raw u (rename s e)).
Proof.
  induction e as [r c IH] using expr_ind'. intros u. cbn [to_string_raw rename].
  destruct r as [op|[n|v]]; [|apply agree_refl; intros; exact I|exact I].
  cbn [to_string_raw]. apply (agree_bind any); [|intros; destruct (_ <? _)%Z; exact I].
  rewrite map_map. rewrite Forall_forall in IH.
  destruct c as [|a [|b [|d c]]]; cbn [map]; [exact I| | |].
  - apply (agree_bind any); [apply IH; cbn; auto|intros; exact I].
  - apply (agree_bind any); [apply IH; cbn; auto|]. intros. apply (agree_bind any); [apply IH; cbn; auto|intros; exact I].
  - apply (agree_bind any); [apply IH; cbn; auto|intros; exact I].
Qed.
Lemma str_ren0 e : agree (@any string string) (e_to_string e) (e_to_string (rename s e)).
Proof. apply str_ren. Qed.
Lemma zero_ren e : is_zero (rename s e) = is_zero e.
Proof. destruct e as [[op|[n|v]] c]; reflexivity. Qed.
Lemma terms_ren b cs : forall k, agree (@any string string) (terms_to_string b k cs) (terms_to_string (rename s b) k (map (rename s) cs)).
Proof.
  induction cs as [|c cs IH]; intros k; [exact I|]. cbn [terms_to_string map]. rewrite zero_ren.
  destruct (is_zero c); [apply IH|].
  apply (agree_bind any); [apply str_ren0|]. intros t t' _.
  apply (agree_bind any); [apply (str_ren0 (e_pow b (e_of_i64 k)))|]. intros p p' _.
  apply (agree_bind any); [apply IH|]. intros; exact I.
Qed.
Lemma expansion_ren m t : agree (@any string string) (expansion_to_string m t) (expansion_to_string m (rename_expansion s t)).
Proof.
  unfold expansion_to_string. cbn [rename_expansion ex_of ex_at ex_coef ex_order].
  change (e_sub (rename s (ex_of t)) (rename s (ex_at t))) with (rename s (e_sub (ex_of t) (ex_at t))).
  rewrite c57_aggregate. apply agree_on_ok. intros b _.
  apply (agree_bind any); [apply terms_ren|]. intros x y _.
  destruct (u64_add m (ex_order t) 1) as [o1| | |]; cbn [bind]; try exact I.
  destruct (e_of_u64 m o1) as [oe| | |] eqn:E; cbn [bind]; try exact I.
  assert (O : rename s oe = oe).
  { unfold e_of_u64 in E. inv_all E; reflexivity. }
  apply (agree_bind any); [|intros; exact I].
  rewrite <- O at 2. apply (str_ren0 (e_pow b oe)).
Qed.
Lemma num_ren e : to_smart_num_r (rename s e) = to_smart_num_r e.
Proof. destruct e as [[op|[n|v]] c]; reflexivity. Qed.

Lemma ren_push a b l l' : renamed s a b -> l' = map (rename s) l -> renamed s (push a l) (push b l').
Proof. intros [H K] ->. split; cbn; [rewrite map_app, H; reflexivity|exact K]. Qed.
Lemma ren_say a b t t' : renamed s a b -> renamed s (say a t) (say b t').
Proof. intros [H K]. split; cbn; [exact H|rewrite !app_length, K; reflexivity]. Qed.
Lemma ren_reg a b i k1 k2 : renamed s a b -> (forall e, agree (renamed s) (k1 e) (k2 (rename s e))) ->
  agree (renamed s) (with_reg a i k1) (with_reg b i k2).
Proof.
  intros H K. unfold with_reg. destruct H as [H L]. rewrite H, nth_error_map.
  destruct (nth_error (regs a) i) as [e|]; cbn [option_map]; [apply K|split; assumption].
Qed.
Lemma ren_var a b x k1 k2 : renamed s a b -> (forall e, agree (renamed s) (k1 e) (k2 (rename s e))) ->
  agree (renamed s) (with_var a x k1) (with_var b (rename_vref s x) k2).
Proof. intros H K. destruct x as [y|u]; cbn [with_var rename_vref]; [apply (K (e_var y))|apply ren_reg; assumption]. Qed.

Lemma say_taylor_error a b er : renamed s a b ->
  agree (renamed s) (let* t := taylor_error_to_string er in Ok (say a t))
    (let* t := taylor_error_to_string (mkTaylorError (rename s (te_expr er)) (te_reason er)) in Ok (say b t)).
Proof.
  intros H. unfold taylor_error_to_string. cbn [te_expr te_reason]. pose proof (str_ren0 (te_expr er)) as K.
  destruct (e_to_string (te_expr er)), (e_to_string (rename s (te_expr er))); cbn [agree bind] in *; try contradiction; try exact I.
  apply ren_say, H.
Qed.

Hypothesis inj : injective s.

Lemma exec_ren fuel m c a b : renamed s a b -> agree (renamed s) (exec fuel m c a) (exec fuel m (rename_call s c) b).
Proof.
  intros H. destruct c; cbn [exec rename_call]; repeat (first [apply ren_reg; [exact H|]; intros ? | apply ren_var; [exact H|]; intros ?]).
  - apply ren_push; [exact H|reflexivity].
  - cbn [into_expression]. destruct (val_from_int m t z); cbn [bind agree]; try exact I. apply ren_push; [exact H|reflexivity].
  - cbn [into_expression bind agree]. apply ren_push; [exact H|reflexivity].
  - cbn [into_expression bind agree]. apply ren_push; [exact H|reflexivity].
  - destruct (sn_new_rational m s0 n d) as [[x|]| | |]; cbn [bind agree]; try exact I; [apply ren_push; [exact H|reflexivity]|apply ren_say, H].
  - apply ren_push; [exact H|reflexivity].
  - apply ren_push; [exact H|reflexivity].
  - apply ren_push; [exact H|]. destruct g; reflexivity.
  - apply ren_push; [exact H|]. destruct g; reflexivity.
  - rewrite c57_aggregate. apply agree_on_ok. intros z _. apply ren_push; [exact H|reflexivity].
  - rewrite c57_substitute by exact inj. destruct (substitute e e0 e1) as [z|er]; cbn [on_result].
    + apply ren_push; [exact H|reflexivity].
    + apply ren_say, H.
  - rewrite c57_derivative by exact inj. apply agree_on_ok. intros [d|[er]] _; cbn [on_result].
    + apply ren_push; [exact H|reflexivity].
    + unfold derivative_error_to_string. pose proof (str_ren0 er) as K.
      destruct (e_to_string er), (e_to_string (rename s er)); cbn [agree bind] in *; try contradiction; try exact I. apply ren_say, H.
  - rewrite c57_taylor by exact inj. apply agree_on_ok. intros [t|er] _; cbn [on_result].
    + apply ren_push; [exact H|]. cbn [rename_expansion ex_coef ex_residual]. rewrite map_app. reflexivity.
    + apply say_taylor_error, H.
  - rewrite c57_taylor by exact inj. apply agree_on_ok. intros [t|er] _; cbn [on_result].
    + apply (agree_bind any); [apply expansion_ren|]. intros. apply ren_say, H.
    + apply say_taylor_error, H.
  - rewrite c57_limit by exact inj. apply agree_on_ok. intros [t|er] _; cbn [on_result].
    + apply (agree_bind any); [|intros; apply ren_say, H]. destruct t; cbn [rename_limit l_to_string]; try exact I. apply str_ren0.
    + apply ren_say, H.
  - apply (agree_bind any); [apply str_ren0|]. intros. apply ren_say, H.
  - unfold near_r. rewrite !num_ren. apply (agree_bind eq); [apply agree_refl; reflexivity|]. intros r r' <-.
    destruct r; apply ren_say, H.
Qed.

Lemma run_ren fuel m p : forall a b, renamed s a b -> agree (renamed s) (run fuel m p a) (run fuel m (map (rename_call s) p) b).
Proof.
  induction p as [|c p IH]; intros a b H; cbn [run map]; [exact H|].
  apply (agree_bind (renamed s)); [apply exec_ren, H|]. intros; apply IH; assumption.
Qed.
End Rename.

Theorem c96_renaming s : injective s -> forall fuel m p,
  agree (renamed s) (run fuel m p start) (run fuel m (map (rename_call s) p) start).
Proof. intros H fuel m p. apply run_ren; [exact H|split; reflexivity]. Qed.
Print Assumptions c96_renaming.

(** the renamed program may end as it does in every way; here it goes through, and both outcomes are as stated *)
Example c96_renaming_meets :
  let s x := ("my_" ++ x)%string in
  let p := [New_var "x"; New_int TI32 3; Binary MulF 0%nat 1%nat; Derive_by 2%nat (ByName "x"); Print 2%nat; Derive_by 2%nat (ByReg 1%nat)] in
  injective s /\
  (exists a, run 0%nat Debug p start = Ok a /\ out a = ["x * 3"; "3 cannot be used as a variable"]%string) /\
  (exists b, run 0%nat Debug (map (rename_call s) p) start = Ok b /\ out b = ["my_x * 3"; "3 cannot be used as a variable"]%string).
Proof.
  split; [|split; eexists; (split; [vm_compute; reflexivity|reflexivity])].
  intros y z H. cbn in H. now injection H.
Qed.
