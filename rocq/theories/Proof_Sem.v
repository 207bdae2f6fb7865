(** Proofs about the semantic checks: basics and the structure of accepted programs. *)
From Coq Require Import List Arith NArith ZArith Bool Lia.
From Verif Require Import Base Model_Token Model_Utf8 Model_Classify Model_Literal Model_Parse Model_Sem.
From Verif Require Import Spec_Parse Spec_Sem Proof_Parse2 Proof_Parse5.
Import ListNotations.
Open Scope list_scope.
Open Scope N_scope.

(** * Outcomes *)

Lemma sbind_pass : forall A B (r : sres A) (f : sst -> A -> sres B) s b,
  sbind r f = Pass s b -> exists s1 a, r = Pass s1 a /\ f s1 a = Pass s b.
Proof. intros A B [s1 a|m|] f s b H; cbn in H; [eauto|discriminate|discriminate]. Qed.

Lemma rbind_pass : forall A B (r : res A) (f : A -> sres B) s b,
  rbind r f = Pass s b -> exists a, r = Ok a /\ f a = Pass s b.
Proof. intros A B [a|] f s b H; cbn in H; [eauto|discriminate]. Qed.

Lemma bind_ok : forall A B (r : res A) (f : A -> res B) b,
  bind r f = Ok b -> exists a, r = Ok a /\ f a = Ok b.
Proof. intros A B [a|] f b H; cbn in H; [eauto|discriminate]. Qed.

(** Takes an outcome apart until all steps that were passed are hypotheses. *)
Ltac simple_inv H := inversion H; clear H; subst.
Ltac unwind H :=
  match type of H with
  | sbind _ _ = Pass _ _ =>
      let s := fresh "s" in let a := fresh "a" in let E := fresh "E" in
      apply sbind_pass in H as (s & a & E & H); cbn beta iota in H; unwind E; unwind H
  | rbind _ _ = Pass _ _ =>
      let a := fresh "a" in let E := fresh "E" in
      apply rbind_pass in H as (a & E & H); cbn beta iota in H; unwind H
  | reject _ _ _ = Pass _ _ => discriminate
  | Stop _ = Pass _ _ => discriminate
  | Crash = Pass _ _ => discriminate
  | Pass _ _ = Pass _ _ => simple_inv H
  | (let (_, _) := ?p in _) = Pass _ _ => destruct p; cbn beta iota in H; unwind H
  | (if ?b then _ else _) = Pass _ _ => let E := fresh "B" in destruct b eqn:E; cbn beta iota in H; unwind H
  | _ => idtac
  end.

(** * Stores *)

Lemma upd_length : forall A (l : list A) i f, List.length (upd l i f) = List.length l.
Proof. induction l as [|x l IH]; intros [|i] f; cbn; auto. Qed.

Lemma nth_upd_same : forall A (l : list A) i f x, nth_error l i = Some x -> nth_error (upd l i f) i = Some (f x).
Proof. induction l as [|y l IH]; intros [|i] f x H; cbn in *; try discriminate; [now inversion H|auto]. Qed.

Lemma nth_upd_other : forall A (l : list A) i j f, i <> j -> nth_error (upd l i f) j = nth_error l j.
Proof. induction l as [|y l IH]; intros [|i] [|j] f H; cbn; auto; [congruence]. Qed.

Lemma deref_ok : forall A (l : list A) i x, deref l i = Ok x <-> nth_error l i = Some x.
Proof. intros A l i x. unfold deref. destruct (nth_error l i); split; intro H; inversion H; auto. Qed.

Lemma ty_eqb_eq : forall a b, ty_eqb a b = true <-> a = b.
Proof.
  induction a as [| | | | | |a IH]; intros []; cbn; split; intro H; try discriminate; try reflexivity.
  - f_equal. now apply IH.
  - inversion H; subst. now apply IH.
Qed.

Lemma ty_eqb_refl : forall a, ty_eqb a a = true.
Proof. intro a. now apply ty_eqb_eq. Qed.

Lemma text_eqb_true : forall a b, text_eqb a b = true <-> a = b.
Proof.
  induction a as [|x a IH]; intros [|y b]; cbn; split; intro H; try discriminate; try reflexivity.
  - apply andb_true_iff in H as (H1 & H2). apply N.eqb_eq in H1. apply IH in H2. congruence.
  - inversion H; subst. rewrite N.eqb_refl. now apply IH.
Qed.

(** * Checks that only mark symbols and give messages *)

Definition same_kind (k k' : kind) : Prop :=
  match k, k' with
  | KVar v, KVar v' =>
      v_type v' = v_type v /\ v_const v' = v_const v /\ v_implicit v' = v_implicit v /\
      v_exported v' = v_exported v /\ v_defined v' = v_defined v /\ v_cexpr v' = v_cexpr v /\
      (v_read v = true -> v_read v' = true) /\ (v_reassigned v = true -> v_reassigned v' = true)
  | KFunc f, KFunc f' =>
      f_external f' = f_external f /\ f_export f' = f_export f /\ f_ret f' = f_ret f /\
      f_num f' = f_num f /\ f_params f' = f_params f /\ (f_called f = true -> f_called f' = true)
  | KAlias t, KAlias t' => t' = t
  | KSpace c, KSpace c' => c' = c
  | _, _ => False
  end.
Definition same_sym (y y' : symbol) : Prop :=
  y_name y' = y_name y /\ y_loc y' = y_loc y /\ same_kind (y_kind y) (y_kind y').

Lemma same_kind_refl : forall k, same_kind k k.
Proof. intros [v|f|t|c]; cbn; tauto. Qed.
Lemma same_kind_trans : forall a b c, same_kind a b -> same_kind b c -> same_kind a c.
Proof.
  intros [v|f|t|x] [v'|f'|t'|x'] [v''|f''|t''|x''] H1 H2; cbn in *; try contradiction; try congruence.
  - decompose [and] H1. decompose [and] H2. repeat (split; [congruence|]). split; auto.
  - decompose [and] H1. decompose [and] H2. repeat (split; [congruence|]). auto.
Qed.
Lemma same_sym_refl : forall y, same_sym y y.
Proof. intro y. split; [easy|]. split; [easy|]. apply same_kind_refl. Qed.
Lemma same_sym_trans : forall a b c, same_sym a b -> same_sym b c -> same_sym a c.
Proof.
  intros a b c (H1 & H2 & H3) (H4 & H5 & H6). split; [congruence|]. split; [congruence|].
  now apply same_kind_trans with (y_kind b).
Qed.

Record calm (s s' : sst) : Prop := mkcalm {
  cm_scope : s_scope s' = s_scope s;
  cm_scopes : s_scopes s' = s_scopes s;
  cm_main : s_main s' = s_main s;
  cm_cur : s_cur s' = s_cur s;
  cm_last : s_last s' = s_last s;
  cm_depth : s_depth s' = s_depth s;
  cm_len : List.length (s_syms s') = List.length (s_syms s);
  cm_syms : forall i y, nth_error (s_syms s) i = Some y ->
    exists y', nth_error (s_syms s') i = Some y' /\ same_sym y y' }.

Lemma calm_refl : forall s, calm s s.
Proof. intro s. constructor; auto. intros i y H. exists y. split; [easy|apply same_sym_refl]. Qed.

Lemma calm_trans : forall a b c, calm a b -> calm b c -> calm a c.
Proof.
  intros a b c [A1 A2 A3 A4 A5 A6 A7 A8] [B1 B2 B3 B4 B5 B6 B7 B8].
  constructor; try congruence.
  intros i y H. destruct (A8 i y H) as (y' & H1 & H2). destruct (B8 i y' H1) as (y'' & H3 & H4).
  exists y''. split; [easy|]. now apply same_sym_trans with y'.
Qed.

Lemma calm_say : forall c l s, calm s (say c l s).
Proof. intros c l s. constructor; auto. intros i y H. exists y. split; [easy|apply same_sym_refl]. Qed.

Lemma calm_kind : forall s k y kd, nth_error (s_syms s) k = Some y -> same_kind (y_kind y) kd ->
  calm s (set_kind s k kd).
Proof.
  intros s k y kd H1 H2. constructor; auto.
  - cbn. apply upd_length.
  - intros i z H. cbn. destruct (Nat.eq_dec k i) as [->|HN].
    + assert (z = y) by congruence. subst z. rewrite (nth_upd_same _ _ _ _ _ H1). eexists. split; [reflexivity|].
      split; [easy|]. split; [easy|]. exact H2.
    + rewrite nth_upd_other by exact HN. exists z. split; [easy|apply same_sym_refl].
Qed.

Lemma warn_calm : forall w c l s s' u, warn w c l s = Pass s' u -> calm s s'.
Proof. intros w c l s s' u H. unfold warn in H. unwind H. apply calm_say. Qed.

Lemma find_var_spec : forall src s t s' k v, scope_find_var src s t = Pass s' (k, v) ->
  s' = s /\ exists n y, token_to_mbs_str src t = Ok n /\ scope_find_name s n = Ok (Some k) /\
    nth_error (s_syms s) k = Some y /\ y_kind y = KVar v /\ v_defined v = true.
Proof.
  intros src s t s' k v H. unfold scope_find_var in H. unwind H.
  destruct a0 as [k0|]; [|discriminate]. unwind H. apply deref_ok in E1.
  destruct (y_kind a0) as [v0|f|ty|[c|]] eqn:K; try discriminate.
  destruct (v_defined v0) eqn:D; [|discriminate]. inversion H; subst. split; [easy|]. exists a, a0. auto.
Qed.

Lemma ident_calm : forall src s t s' x, validate_ident_expr src s t = Pass s' x -> calm s s'.
Proof.
  intros src s t s' x H. unfold validate_ident_expr in H. apply sbind_pass in H as (s1 & (k, v) & H1 & H).
  apply find_var_spec in H1 as (-> & n & y & _ & _ & N1 & K & _). inversion H; subst.
  apply calm_kind with y; [easy|]. rewrite K. cbn. tauto.
Qed.

Lemma literal_pass : forall A s t (r : lit A) k s' x, literal s t r k = Pass s' x ->
  exists a, r = Val a /\ k a = Pass s' x.
Proof. intros A s t [a|e] k s' x H; cbn in H; [eauto|discriminate]. Qed.

Lemma const_calm : forall w src s t s' x, validate_const_expr w src s t = Pass s' x -> s' = s.
Proof.
  intros w src s t s' x H. unfold validate_const_expr in H.
  destruct (t_type t); try discriminate; unwind H; try reflexivity.
  - apply literal_pass in H as (z & _ & H). now inversion H.
  - apply literal_pass in H as (z & _ & H). now inversion H.
  - destruct (const_str src t) as [[r|]|]; try discriminate. apply literal_pass in H as (z & _ & H). now inversion H.
Qed.

Lemma unary_same : forall o r s s' t, validate_unary o r s = Pass s' t -> s' = s.
Proof.
  intros o r s s' t H. unfold validate_unary, is_numeric, validate_bool_operand in H.
  destruct o; unwind H; auto. destruct (is_ident r), (x_ty r); try discriminate. now inversion H.
Qed.

Lemma numeric_same : forall l t s s' u, is_numeric l t s = Pass s' u -> s' = s /\ numeric t = true.
Proof. intros l t s s' u H. unfold is_numeric in H. unwind H. auto. Qed.

Lemma div_same : forall src r s s' u, is_div_by_zero src r s = Pass s' u -> s' = s.
Proof.
  intros src r s s' u H. unfold is_div_by_zero in H. destruct r; unwind H; auto.
  destruct a as [z|e]; unwind H; auto.
Qed.

Lemma boolop_same : forall l t s s' u, validate_bool_operand l t s = Pass s' u -> s' = s /\ t = TBool.
Proof. intros l t s s' u H. unfold validate_bool_operand in H. unwind H. apply ty_eqb_eq in B. auto. Qed.

Lemma binary_same : forall src o l r s s' t, validate_binary src o l r s = Pass s' t -> s' = s.
Proof.
  intros src o l r s s' t H. unfold validate_binary in H.
  destruct o; unwind H; auto;
  repeat match goal with
  | H : is_numeric _ _ _ = Pass _ _ |- _ => apply numeric_same in H as (? & _)
  | H : is_div_by_zero _ _ _ = Pass _ _ |- _ => apply div_same in H
  | H : validate_bool_operand _ _ _ = Pass _ _ |- _ => apply boolop_same in H as (? & _)
  end; congruence.
Qed.

Lemma find_func_spec : forall s n k f, find_func_by_name s n = Ok (Some (k, f)) ->
  scope_find_name s n = Ok (Some k) /\ exists y, nth_error (s_syms s) k = Some y /\ y_kind y = KFunc f.
Proof.
  intros s n k f H. unfold find_func_by_name in H. apply bind_ok in H as (k0 & H1 & H).
  destruct k0 as [k0|]; [|discriminate]. apply bind_ok in H as (y & H2 & H). apply deref_ok in H2.
  destruct (y_kind y) eqn:K; try discriminate. inversion H; subst. split; [easy|]. now exists y.
Qed.

Lemma call_head_spec : forall src s name args n s' k f, call_head src s name args n = Pass s' (k, f) ->
  s' = set_kind s k (KFunc (mark_called f)) /\ f_num f = n /\
  exists nm y, token_to_mbs_str src name = Ok nm /\ scope_find_name s nm = Ok (Some k) /\
    nth_error (s_syms s) k = Some y /\ y_kind y = KFunc f.
Proof.
  intros src s name args n s' k f H. unfold call_head in H. apply sbind_pass in H as (s1 & (k1, f1) & H1 & H).
  unfold find_func_by_token in H1. apply rbind_pass in H1 as (nm & HN & H1). apply rbind_pass in H1 as (o & HF & H1).
  destruct o as [(k2, f2)|]; [|discriminate]. inversion H1; subst k2 f2 s1. clear H1.
  apply find_func_spec in HF as (HF & y & HY & HK).
  destruct (negb (f_num f1 =? n)) eqn:B; [discriminate|]. apply negb_false_iff, N.eqb_eq in B.
  assert (Pass (set_kind s k1 (KFunc (mark_called f1))) (k1, f1) = Pass s' (k, f)) as Q.
  { destruct args as [|([|t r], e) args]; auto. destruct (f_num f1 =? 0); [discriminate|auto]. }
  inversion Q; subst. split; [easy|]. split; [easy|]. exists nm, y. auto.
Qed.

Lemma mark_called_same : forall f, same_kind (KFunc f) (KFunc (mark_called f)).
Proof. intro f. cbn. tauto. Qed.

Lemma call_head_calm : forall src s name args n s' kf, call_head src s name args n = Pass s' kf -> calm s s'.
Proof.
  intros src s name args n s' (k, f) H. apply call_head_spec in H as (-> & _ & nm & y & _ & _ & HY & HK).
  apply calm_kind with y; [easy|]. rewrite HK. apply mark_called_same.
Qed.

Lemma check_args_calm : forall ve args s tys s' xs,
  Forall (fun a => forall s s' x, ve s (snd a) = Pass s' x -> calm s s') args ->
  check_args ve s args tys = Pass s' xs -> calm s s'.
Proof.
  intros ve args. induction args as [|(tk, a) args IH]; intros s tys s' xs HF H; destruct tys as [|t tys]; cbn [check_args] in H.
  - inversion H; subst. apply calm_refl.
  - discriminate.
  - inversion H; subst. apply calm_refl.
  - inversion HF as [|? ? F1 F2]; subst. apply sbind_pass in H as (s1 & x & H1 & H). apply F1 in H1.
    destruct (ty_eqb (x_ty x) t); [|unwind H]. apply sbind_pass in H as (s2 & xs1 & H2 & H).
    apply (IH _ _ _ _ F2) in H2. inversion H; subst. now apply calm_trans with s1.
Qed.

Lemma expr_calm : forall w src e s s' x, validate_expr w src s e = Pass s' x -> calm s s'.
Proof.
  intros w src e. induction e using expr_ind'; intros s s' x H'; cbn [validate_expr] in H'.
  - now apply ident_calm in H'.
  - apply const_calm in H'. subst. apply calm_refl.
  - apply sbind_pass in H' as (s1 & (k, f) & H1 & H'). apply call_head_calm in H1.
    apply sbind_pass in H' as (s2 & xs & H2 & H'). inversion H'; subst.
    apply calm_trans with s1; [easy|]. apply (check_args_calm _ _ _ _ _ _ H H2).
  - discriminate.
  - apply sbind_pass in H' as (s1 & r & H1 & H'). apply IHe in H1. apply sbind_pass in H' as (s2 & t & H2 & H').
    apply unary_same in H2. inversion H'; subst. easy.
  - apply sbind_pass in H' as (s1 & r & H1 & H'). discriminate.
  - apply sbind_pass in H' as (s1 & r & H1 & H'). apply IHe2 in H1.
    apply sbind_pass in H' as (s2 & l & H2 & H'). apply IHe1 in H2.
    destruct (ty_eqb (x_ty l) (x_ty r)); [|discriminate]. apply sbind_pass in H' as (s3 & t & H3 & H').
    apply binary_same in H3. inversion H'; subst. now apply calm_trans with s1.
Qed.

Lemma bool_calm : forall w x s s' u, validate_bool_expr w x s = Pass s' u -> calm s s' /\ x_ty x = TBool.
Proof.
  intros w x s s' u H. unfold validate_bool_expr in H. destruct (ty_eqb (x_ty x) TBool) eqn:B; [|discriminate].
  apply ty_eqb_eq in B. cbn [negb] in H. split; [|easy].
  destruct x; try (inversion H; subst; apply calm_refl). destruct v; try (inversion H; subst; apply calm_refl).
  now apply warn_calm in H.
Qed.

Lemma condition_calm : forall w src s e s' x, validate_condition w src s e = Pass s' x -> calm s s'.
Proof.
  intros w src s e s' x H. unfold validate_condition in H. apply sbind_pass in H as (s1 & y & H1 & H).
  apply sbind_pass in H as (s2 & u & H2 & H). inversion H; subst. apply expr_calm in H1. apply bool_calm in H2 as (H2 & _).
  now apply calm_trans with s1.
Qed.

Lemma missing_block_same : forall wd tok ch s s' u, is_missing_block wd tok ch s = Pass s' u -> s' = s /\ ch <> [].
Proof. intros wd tok ch s s' u H. unfold is_missing_block in H. destruct ch; unwind H. now split. Qed.

Lemma missing_if_same : forall b tok s s' u, validate_control_not_missing_if b tok s = Pass s' u ->
  s' = s /\ has_if_before b = true.
Proof. intros b tok s s' u H. unfold validate_control_not_missing_if in H. unwind H. auto. Qed.

Lemma dead_code_spec : forall l s s' u, no_dead_code_below l s = Pass s' u -> s' = s /\ Forall (fun n => idle (n_type n)) l.
Proof.
  induction l as [|n l IH]; intros s s' u H; cbn [no_dead_code_below] in H.
  - inversion H; subst. split; [easy|constructor].
  - unfold idle. destruct (n_type n) eqn:T; try (unwind H; fail); apply IH in H as (-> & F); split; auto; constructor; auto; rewrite T; auto.
Qed.

Lemma sane_same : forall n s s' u, assert_sane_child n s = Pass s' u -> s' = s /\ (n_child n = [] \/ may_have_child n = true).
Proof. intros n s s' u H. unfold assert_sane_child in H. destruct (n_child n); unwind H; auto. Qed.

Lemma return_ok_same : forall x s s' u, is_valid_return_expr x s = Pass s' u -> s' = s.
Proof. intros x s s' u H. unfold is_valid_return_expr in H. unwind H; auto. Qed.

Lemma return_calm : forall w src s tok e after s' p, validate_stmt_return w src s tok e after = Pass s' p ->
  calm s s' /\ Forall (fun n => idle (n_type n)) after.
Proof.
  intros w src s tok e after s' p H. unfold validate_stmt_return in H. apply sbind_pass in H as (s1 & u & H1 & H).
  assert (s1 = s) as ->. { destruct after; [now inversion H1|]. now apply sane_same in H1 as (? & _). }
  destruct e as [e|].
  - apply sbind_pass in H as (s2 & x & H2 & H). apply sbind_pass in H as (s3 & u3 & H3 & H).
    apply sbind_pass in H as (s4 & u4 & H4 & H). apply dead_code_spec in H4 as (-> & F). apply return_ok_same in H3.
    inversion H; subst. apply expr_calm in H2. auto.
  - apply rbind_pass in H as ((y, f) & _ & H). destruct (negb (ty_eqb (f_ret f) TVoid)); [unwind H|].
    apply sbind_pass in H as (s4 & u4 & H4 & H). apply dead_code_spec in H4 as (-> & F). inversion H; subst.
    split; [apply calm_refl|easy].
Qed.

(** * Adding a symbol *)

(** The symbol table of the current scope after adding y as number k. *)
Record added (s s' : sst) (k : nat) (y : symbol) : Prop := mkadded {
  ad_k : k = List.length (s_syms s);
  ad_syms : s_syms s' = s_syms s ++ [y];
  ad_main : s_main s' = s_main s;
  ad_cur : s_cur s' = s_cur s;
  ad_last : s_last s' = s_last s;
  ad_depth : s_depth s' = s_depth s;
  ad_free : find_symbol_type s (y_name y) = Ok None;
  ad_scope : exists i c, s_scope s' = Some i /\
    nth_error (s_scopes (match s_scope s with Some _ => s | None => fst (make_scope s) end)) i = Some c /\
    (s_scope s = Some i \/ s_scope s = None /\ i = List.length (s_scopes s)) /\
    s_scopes s' = upd (s_scopes (match s_scope s with Some _ => s | None => fst (make_scope s) end)) i
      (put_syms ((y_name y, k) :: match c_syms c with Some t => t | None => [] end)) /\
    assoc (match c_syms c with Some t => t | None => [] end) (y_name y) = None }.

Lemma add_symbol_some : forall s y s' k, scope_add_symbol s y = Pass s' (Some k) -> added s s' k y.
Proof.
  intros s y s' k H. unfold scope_add_symbol in H. apply rbind_pass in H as (old & H1 & H).
  destruct old as [t|]. { destruct (redefinition t (symtype_of (y_kind y)) (y_name y)); discriminate. }
  destruct (s_scope s) as [i|] eqn:SC.
  - apply rbind_pass in H as (c & HC & H). apply deref_ok in HC.
    destruct (assoc (match c_syms c with Some t => t | None => [] end) (y_name y)) eqn:A; [discriminate|].
    inversion H; subst. constructor; auto. exists i, c. rewrite SC. repeat split; auto.
  - unfold make_scope in H. apply rbind_pass in H as (c & HC & H). apply deref_ok in HC.
    destruct (assoc (match c_syms c with Some t => t | None => [] end) (y_name y)) eqn:A; [discriminate|].
    inversion H; subst. constructor; auto. exists (List.length (s_scopes s)), c. rewrite SC. repeat split; auto.
Qed.

Lemma add_or_stop_added : forall s y s' k, add_or_stop s y = Pass s' k -> added s s' k y.
Proof.
  intros s y s' k H. unfold add_or_stop in H. apply sbind_pass in H as (s1 & [k1|] & H1 & H); [|discriminate].
  inversion H; subst. now apply add_symbol_some.
Qed.

Lemma add_param_added : forall s y s' k, scope_add_param s y = Pass s' k -> added s s' k y.
Proof.
  intros s y s' k H. unfold scope_add_param in H. apply rbind_pass in H as (k0 & _ & H). destruct k0; [discriminate|].
  apply rbind_pass in H as (old & _ & H). destruct old; [discriminate|].
  apply sbind_pass in H as (s1 & [k1|] & H1 & H); [|discriminate]. inversion H; subst. now apply add_symbol_some.
Qed.

(** * The depth of loops *)

Ltac depth_step :=
  match goal with
  | H : validate_expr _ _ _ _ = Pass _ _ |- _ => apply expr_calm in H; apply cm_depth in H
  | H : validate_condition _ _ _ _ = Pass _ _ |- _ => apply condition_calm in H; apply cm_depth in H
  | H : warn _ _ _ _ = Pass _ _ |- _ => apply warn_calm in H; apply cm_depth in H
  | H : add_or_stop _ _ = Pass _ _ |- _ => apply add_or_stop_added in H; apply ad_depth in H
  | H : scope_add_param _ _ = Pass _ _ |- _ => apply add_param_added in H; apply ad_depth in H
  | H : is_missing_block _ _ _ _ = Pass _ _ |- _ => apply missing_block_same in H as (H & _)
  | H : validate_control_not_missing_if _ _ _ = Pass _ _ |- _ => apply missing_if_same in H as (H & _)
  | H : no_dead_code_below _ _ = Pass _ _ |- _ => apply dead_code_spec in H as (H & _)
  | H : assert_sane_child _ _ = Pass _ _ |- _ => apply sane_same in H as (H & _)
  end.

Lemma find_head_ok : forall s h, find_scope_head s = Ok h -> True.
Proof. auto. Qed.

Lemma reset_depth : forall s s', reset_scope_head s = Ok s' -> s_depth s' = s_depth s.
Proof. intros s s' H. unfold reset_scope_head in H. apply bind_ok in H as (h & _ & H). now inversion H. Qed.

Lemma restore_depth : forall s s', restore_parent_scope s = Ok s' -> s_depth s' = s_depth s.
Proof.
  intros s s' H. unfold restore_parent_scope in H. apply bind_ok in H as (s1 & H1 & H). apply reset_depth in H1.
  destruct (s_scope s1); [|inversion H; subst; exact H1]. apply bind_ok in H as (c & _ & H). inversion H; subst. exact H1.
Qed.

Lemma adjacent_depth : forall s s', make_adjacent_scope s = Ok s' -> s_depth s' = s_depth s.
Proof. intros s s' H. unfold make_adjacent_scope in H. destruct (s_scope s); [|discriminate]. now inversion H. Qed.

Lemma child_depth : forall s s', make_child_scope s = Ok s' -> s_depth s' = s_depth s.
Proof.
  intros s s' H. unfold make_child_scope in H. destruct (s_scope s).
  - apply bind_ok in H as (c & _ & H). destruct (c_child c); now inversion H.
  - unfold make_scope in H. apply bind_ok in H as (c & _ & H). destruct (c_child c); now inversion H.
Qed.

Lemma setup_pass : forall sub s s' c, setup_and_validate sub s = Pass s' c ->
  exists s1 s2 s3 s4, make_child_scope s = Ok s1 /\ sub s1 = Pass s2 c /\ reset_scope_head s2 = Ok s3 /\
    restore_parent_scope s3 = Ok s4 /\ make_adjacent_scope s4 = Ok s'.
Proof.
  intros sub s s' c H. unfold setup_and_validate in H. apply rbind_pass in H as (s1 & H1 & H).
  apply sbind_pass in H as (s2 & c2 & H2 & H). apply rbind_pass in H as (s3 & H3 & H).
  apply rbind_pass in H as (s4 & H4 & H). apply rbind_pass in H as (s5 & H5 & H). inversion H; subst.
  exists s1, s2, s3, s4. auto.
Qed.

Lemma setup_depth : forall sub s s' c, setup_and_validate sub s = Pass s' c ->
  exists s1 s2, sub s1 = Pass s2 c /\ s_depth s1 = s_depth s /\ s_depth s' = s_depth s2.
Proof.
  intros sub s s' c H. apply setup_pass in H as (s1 & s2 & s3 & s4 & H1 & H2 & H3 & H4 & H5).
  exists s1, s2. split; [easy|]. apply child_depth in H1. apply reset_depth in H3. apply restore_depth in H4.
  apply adjacent_depth in H5. split; congruence.
Qed.

Lemma params_loop_depth : forall src ext ps s s' l, params_loop src ext s ps = Pass s' l -> s_depth s' = s_depth s.
Proof.
  intros src ext ps. induction ps as [|p ps IH]; intros s s' l H; cbn [params_loop] in H; [now inversion H|].
  apply rbind_pass in H as (t & _ & H). destruct t as [t|]; [|unwind H]. apply rbind_pass in H as ((n, v) & _ & H).
  apply sbind_pass in H as (s1 & k & H1 & H). apply sbind_pass in H as (s2 & l2 & H2 & H). apply IH in H2.
  inversion H; subst. depth_step. congruence.
Qed.

Lemma func_params_depth : forall src s ext num ps s' l, validate_func_params src s ext num ps = Pass s' l ->
  s_depth s' = s_depth s.
Proof.
  intros src s ext num ps s' l H. unfold validate_func_params in H. destruct (num =? 0); [now inversion H|].
  apply rbind_pass in H as (s1 & H1 & H). apply sbind_pass in H as (s2 & l2 & H2 & H).
  apply rbind_pass in H as (s3 & H3 & H). inversion H; subst. apply child_depth in H1. apply params_loop_depth in H2.
  apply restore_depth in H3. congruence.
Qed.

Lemma return_type_same : forall src s ret s' t, validate_return_type src s ret = Pass s' t -> s' = s.
Proof.
  intros src s ret s' t H. unfold validate_return_type in H. destruct ret; [now inversion H|].
  apply rbind_pass in H as (r & _ & H). destruct r; [now inversion H|discriminate].
Qed.

Lemma func_head_depth : forall src s name ret num ext exp ps s' r, func_head src s name ret num ext exp ps = Pass s' r ->
  s_depth s' = s_depth s.
Proof.
  intros src s name ret num ext exp ps s' r H. unfold func_head in H. apply rbind_pass in H as (top & _ & H).
  destruct ((exp || ext) && negb top); [discriminate|]. apply sbind_pass in H as (s1 & t & H1 & H).
  apply return_type_same in H1. subst s1. apply rbind_pass in H as (n & _ & H). cbv zeta in H.
  apply sbind_pass in H as (s2 & k & H2 & H). apply sbind_pass in H as (s3 & l & H3 & H).
  apply func_params_depth in H3. inversion H; subst. depth_step. cbn in *. congruence.
Qed.

Lemma func_end_depth : forall s ch s' u, func_end s ch = Pass s' u -> s_depth s' = s_depth s.
Proof.
  intros s ch s' u H. unfold func_end in H. apply rbind_pass in H as ((y, f) & _ & H).
  destruct (f_external f); [now inversion H|]. destruct (negb (returned_value ch) && _); [discriminate|].
  destruct (returned_value ch && _); [discriminate|]. destruct (s_last s); [now inversion H|discriminate].
Qed.

Lemma var_def_depth : forall w src s tok te name e i c x s' p,
  validate_stmt_var_def w src s tok te name e i c x = Pass s' p -> s_depth s' = s_depth s.
Proof.
  intros w src s tok te name e i c x s' p H. unfold validate_stmt_var_def in H. destruct te as [|t0 rest]; [discriminate|].
  apply rbind_pass in H as (ty & _ & H). destruct ty as [ty|].
  - unfold validate_stmt_type_alias in H. destruct (negb c); [unwind H|]. cbv zeta in H.
    destruct (negb _); [unwind H|]. destruct tok as [|t [|q r]]; try discriminate.
    apply rbind_pass in H as (tt & _ & H). apply rbind_pass in H as (n & _ & H).
    apply sbind_pass in H as (s1 & k & H1 & H). inversion H; subst. now depth_step.
  - apply sbind_pass in H as (s1 & y & H1 & H). apply sbind_pass in H as (s2 & (k, v) & H2 & H). cbv zeta in H.
    apply sbind_pass in H as (s3 & u & H3 & H). unfold is_expr_compatible_with_var in H3. unwind H3.
    assert (D2 : s_depth s2 = s_depth s1).
    { unfold node_to_var in H2. apply sbind_pass in H2 as (s4 & u4 & H4 & H2).
      assert (s4 = s1) as ->. { unfold is_void_func_assign in H4. destruct y; try (now inversion H4). destruct ty; try discriminate; now inversion H4. }
      apply sbind_pass in H2 as (s5 & t5 & H5 & H2).
      assert (s5 = s1) as ->.
      { unfold declared_type in H5. destruct i; [now inversion H5|]. apply rbind_pass in H5 as (o & _ & H5).
        destruct o; [now inversion H5|unwind H5]. }
      destruct name as [|nt name]; [discriminate|]. apply rbind_pass in H2 as ((n, v5) & _ & H2).
      apply sbind_pass in H2 as (s6 & k6 & H6 & H2). inversion H2; subst. apply add_or_stop_added in H6. apply (ad_depth _ _ _ _ H6). }
    depth_step. destruct (is_const_lit y && negb i).
    + apply sbind_pass in H as (s7 & u7 & H7 & H). inversion H; subst. depth_step. cbn in *. congruence.
    + inversion H; subst. cbn. congruence.
Qed.

Lemma var_assign_depth : forall w src s tok e s' p,
  validate_stmt_var_assign w src s tok e = Pass s' p -> s_depth s' = s_depth s.
Proof.
  intros w src s tok e s' p H. unfold validate_stmt_var_assign in H. destruct tok as [|t tok]; [discriminate|].
  apply sbind_pass in H as (s1 & (k, v) & H1 & H). apply find_var_spec in H1 as (-> & _).
  destruct (v_const v); [discriminate|]. cbv zeta in H. apply sbind_pass in H as (s2 & x & H2 & H).
  apply sbind_pass in H as (s3 & u3 & H3 & H). apply sbind_pass in H as (s4 & u4 & H4 & H).
  unfold is_expr_compatible_with_var in H3. unwind H3.
  assert (s4 = s3) as ->.
  { unfold is_redundant_reassign in H4. destruct x; try (now inversion H4). destruct (k =? sym)%nat; [discriminate|now inversion H4]. }
  depth_step. inversion H; subst. exact H2.
Qed.

(** The depth with which the block of a node is checked. *)
Definition inner_depth (n : node) (d : N) : N :=
  match n_type n with N_WHILE => (d + 1) mod 2 ^ 32 | N_FUNCTION_PROTO => 0 | _ => d end.

Lemma import_same : forall w src s tok s' u, validate_stmt_import w src s tok = Pass s' u -> s' = s.
Proof.
  intros w src s tok s' u H. unfold validate_stmt_import in H. destruct tok as [|q [|t r]]; try discriminate. unwind H. auto.
Qed.

(** What happened when a node passed. *)
Inductive ran (w : world) (src : text) (sub : sst -> sres (list tnode)) (before : list ntype) (after : list node)
    (n : node) (s : sst) : sst -> tpay -> list tnode -> Prop :=
| rn_return : forall e s' p, n_type n = N_RETURN ->
    n_pay n = match e with Some x => PExpr x | None => PNone end ->
    validate_stmt_return w src s (n_token n) e after = Pass s' p -> ran w src sub before after n s s' p []
| rn_unreachable : n_type n = N_UNREACHABLE -> Forall (fun m => idle (n_type m)) after ->
    ran w src sub before after n s s XNone []
| rn_jump : n_type n = N_BREAK \/ n_type n = N_CONTINUE -> 0 < s_depth s ->
    Forall (fun m => idle (n_type m)) after -> ran w src sub before after n s s XNone []
| rn_proto : forall name ret num ext exp ps s' p c, n_type n = N_FUNCTION_PROTO ->
    n_pay n = PProto name ret num ext exp ps ->
    validate_stmt_func_decl src sub s name ret num ext exp ps (n_child n) = Pass s' (p, c) ->
    ran w src sub before after n s s' p c
| rn_def : forall name e i c x s' p, n_type n = N_VAR_DEF -> n_pay n = PVarDef name e i c x ->
    validate_stmt_var_def w src s (n_token n) (n_token_end n) name e i c x = Pass s' p ->
    ran w src sub before after n s s' p []
| rn_assign : forall e s' p, n_type n = N_VAR_ASSIGN -> n_pay n = PAssign e ->
    validate_stmt_var_assign w src s (n_token n) e = Pass s' p -> ran w src sub before after n s s' p []
| rn_call : forall f a m s' x, n_type n = N_EXPR -> n_pay n = PExpr (ECall f a m) ->
    validate_expr w src s (ECall f a m) = Pass s' x ->
    ran w src sub before after n s s' (XExpr x) (map untouched (n_child n))
| rn_cond : forall e s1 x s' c, n_type n = N_IF \/ n_type n = N_ELIF /\ has_if_before before = true ->
    n_pay n = PExpr e -> n_child n <> [] -> validate_condition w src s e = Pass s1 x ->
    setup_and_validate sub s1 = Pass s' c -> ran w src sub before after n s s' (XExpr x) c
| rn_else : forall s' c, n_type n = N_ELSE -> has_if_before before = true -> n_child n <> [] ->
    setup_and_validate sub s = Pass s' c -> ran w src sub before after n s s' XNone c
| rn_while : forall e s1 x s2 c, n_type n = N_WHILE -> n_pay n = PExpr e -> n_child n <> [] ->
    validate_condition w src (set_depth s ((s_depth s + 1) mod 2 ^ 32)) e = Pass s1 x ->
    setup_and_validate sub s1 = Pass s2 c ->
    ran w src sub before after n s (set_depth s2 ((s_depth s2 + 2 ^ 32 - 1) mod 2 ^ 32)) (XExpr x) c
| rn_space : forall s' k c, n_type n = N_NAMESPACE ->
    validate_control_namespace src sub s (n_token n) = Pass s' (k, c) ->
    ran w src sub before after n s s' (XSpace k) c
| rn_other : In (n_type n) [N_IMPORT; N_UNKNOWN; N_COMMENT; N_NOOP] ->
    ran w src sub before after n s s XNone [].

Lemma by_type_ran : forall w src sub before after n s s' p c,
  validate_by_type w src sub before after n s = Pass s' (p, c) -> ran w src sub before after n s s' p c.
Proof.
  intros w src sub before after n s s' p c H. unfold validate_by_type in H. cbv zeta in H.
  destruct (n_type n) eqn:T.
  - inversion H; subst. apply rn_other. rewrite T. cbn; auto.
  - destruct (n_pay n) eqn:P; try discriminate. apply sbind_pass in H as (s1 & q & H1 & H). inversion H; subst.
    apply rn_def with name e is_implicit is_const is_exported; auto.
  - destruct (n_pay n) eqn:P; try discriminate. apply sbind_pass in H as (s1 & q & H1 & H). inversion H; subst.
    apply rn_assign with e; auto.
  - destruct (n_pay n) eqn:P; try discriminate. eapply rn_proto; eauto.
  - destruct (n_pay n) eqn:P; try discriminate. apply sbind_pass in H as (s1 & q & H1 & H). inversion H; subst.
    unfold validate_expr_func in H1. destruct e; try (unwind H1; fail).
    apply sbind_pass in H1 as (s2 & x & H2 & H1). inversion H1; subst. eapply rn_call; eauto.
  - destruct (n_pay n) eqn:P; try discriminate; apply sbind_pass in H as (s1 & q & H1 & H); inversion H; subst.
    + apply rn_return with None; auto.
    + apply rn_return with (Some e); auto.
  - apply sbind_pass in H as (s1 & q & H1 & H). inversion H; subst. apply dead_code_spec in H1 as (-> & F). now apply rn_unreachable.
  - destruct (n_pay n) eqn:P; try discriminate. apply sbind_pass in H as (s1 & q & H1 & H).
    apply sbind_pass in H as (s2 & x & H2 & H). apply sbind_pass in H as (s3 & c3 & H3 & H). inversion H; subst.
    apply missing_block_same in H1 as (-> & NE). eapply rn_cond; eauto.
  - destruct (n_pay n) eqn:P; try discriminate. apply sbind_pass in H as (s1 & q & H1 & H).
    apply sbind_pass in H as (s4 & q4 & H4 & H).
    apply sbind_pass in H as (s2 & x & H2 & H). apply sbind_pass in H as (s3 & c3 & H3 & H). inversion H; subst.
    apply missing_block_same in H1 as (-> & NE). apply missing_if_same in H4 as (-> & B). eapply rn_cond; eauto.
  - apply sbind_pass in H as (s1 & q & H1 & H).
    apply sbind_pass in H as (s4 & q4 & H4 & H). apply sbind_pass in H as (s3 & c3 & H3 & H). inversion H; subst.
    apply missing_block_same in H4 as (-> & NE). apply missing_if_same in H1 as (-> & B). eapply rn_else; eauto.
  - destruct (n_pay n) eqn:P; try discriminate. apply sbind_pass in H as (s1 & (x, c1) & H1 & H). inversion H; subst.
    unfold validate_control_while in H1. cbv zeta in H1. apply sbind_pass in H1 as (s2 & q & H2 & H1).
    apply missing_block_same in H2 as (-> & NE). apply sbind_pass in H1 as (s3 & x3 & H3 & H1).
    apply sbind_pass in H1 as (s4 & c4 & H4 & H1). inversion H1; subst. eapply rn_while; eauto.
  - apply sbind_pass in H as (s1 & q & H1 & H). inversion H; subst. apply import_same in H1 as ->.
    apply rn_other. rewrite T. cbn; auto.
  - apply sbind_pass in H as (s1 & (k, c1) & H1 & H). inversion H; subst. eapply rn_space; eauto.
  - inversion H; subst. apply rn_other. rewrite T. cbn; auto.
  - inversion H; subst. apply rn_other. rewrite T. cbn; auto.
  - destruct (0 <? s_depth s) eqn:D; [|unwind H]. apply N.ltb_lt in D. apply sbind_pass in H as (s1 & q & H1 & H). inversion H; subst.
    apply dead_code_spec in H1 as (-> & F). apply rn_jump; auto.
  - destruct (0 <? s_depth s) eqn:D; [|unwind H]. apply N.ltb_lt in D. apply sbind_pass in H as (s1 & q & H1 & H). inversion H; subst.
    apply dead_code_spec in H1 as (-> & F). apply rn_jump; auto.
Qed.

Lemma node_ran : forall w src before after n s s' x, validate_ast_node w src before after n s = Pass s' x ->
  (n_child n = [] \/ may_have_child n = true) /\
  exists p c, x = mktnode (n_type n) (n_token n) p c /\
    ran w src (walk (validate_ast_node w src) [] (n_child n)) before after n s s' p c.
Proof.
  intros w src before after n s s' x H. destruct n as [ty tok te pay child]. cbn [validate_ast_node] in H.
  apply sbind_pass in H as (s1 & u & H1 & H). apply sane_same in H1 as (-> & SC). split; [exact SC|].
  apply sbind_pass in H as (s2 & (p, c) & H2 & H). inversion H; subst. exists p, c. split; [easy|]. now apply by_type_ran.
Qed.

Lemma walk_cons : forall vn before n l s s' xs, walk vn before (n :: l) s = Pass s' xs ->
  exists s1 x r, vn before l n s = Pass s1 x /\ walk vn (n_type n :: before) l s1 = Pass s' r /\ xs = x :: r.
Proof.
  intros vn before n l s s' xs H. cbn [walk] in H. apply sbind_pass in H as (s1 & x & H1 & H).
  apply sbind_pass in H as (s2 & r & H2 & H). inversion H; subst. exists s1, x, r. auto.
Qed.

(** Induction over the nodes of a tree. *)
Lemma node_ind' : forall P : node -> Prop,
  (forall n, Forall P (n_child n) -> P n) -> forall n, P n.
Proof.
  intros P H. fix IH 1. intros [ty tok te pay child]. apply H. cbn [n_child].
  induction child as [|c r IHr]; constructor; auto.
Qed.

Lemma nodes_ind' : forall P : node -> Prop,
  (forall n, Forall P (n_child n) -> P n) -> forall l, Forall P l.
Proof. intros P H l. apply Forall_forall. intros n _. now apply node_ind'. Qed.

Lemma depth_back : forall d, d < 2 ^ 32 -> ((d + 1) mod 2 ^ 32 + 2 ^ 32 - 1) mod 2 ^ 32 = d.
Proof.
  intros d H. destruct (N.eq_dec d (2 ^ 32 - 1)) as [->|NE]; [reflexivity|].
  rewrite (N.mod_small (d + 1)) by (cbn in *; lia).
  replace (d + 1 + 2 ^ 32 - 1) with (d + 1 * 2 ^ 32) by (cbn; lia). rewrite N.mod_add by (cbn; lia). now apply N.mod_small.
Qed.

(** The block of a node was checked, or it is none. *)
Lemma ran_depth : forall w src sub before after n s s' p c, ran w src sub before after n s s' p c ->
  (s_depth s' = s_depth s /\ (may_have_child n = true -> n_type n = N_EXPR)) \/
  exists s1 s2, sub s1 = Pass s2 c /\ s_depth s1 = inner_depth n (s_depth s) /\
    (s_depth s2 = s_depth s1 -> s_depth s < 2 ^ 32 -> s_depth s' = s_depth s).
Proof.
  intros w src sub before after n s s' p c H. unfold inner_depth, may_have_child.
  destruct H as [e s' p T P H|T F|T D F|name ret num ext exp ps s' p c T P H|name e i c x s' p T P H|e s' p T P H
    |f a m s' x T P H|e s1 x s' c T P NE H1 H|s' c T B NE H|e s1 x s2 c T P NE H1 H|s' k c T H|T].
  - left. rewrite T. split; [|discriminate]. apply return_calm in H as (H & _). now apply cm_depth in H.
  - left. rewrite T. split; [easy|discriminate].
  - left. destruct T as [T|T]; rewrite T; split; easy.
  - right. rewrite T. unfold validate_stmt_func_decl in H. cbv zeta in H.
    apply sbind_pass in H as (s1 & (k, l) & H1 & H). apply sbind_pass in H as (s2 & c2 & H2 & H).
    apply sbind_pass in H as (s3 & u & H3 & H). inversion H; subst. apply func_head_depth in H1.
    apply setup_depth in H2 as (s4 & s5 & H4 & D1 & D2). exists s4, s5. split; [easy|]. cbn in H1. split; [congruence|]. easy.
  - left. rewrite T. split; [|discriminate]. now apply var_def_depth in H.
  - left. rewrite T. split; [|discriminate]. now apply var_assign_depth in H.
  - left. rewrite T. split; [|easy]. apply expr_calm in H. now apply cm_depth in H.
  - right. apply condition_calm in H1. apply cm_depth in H1. apply setup_depth in H as (s4 & s5 & H4 & D1 & D2).
    exists s4, s5. split; [easy|]. split; [|congruence]. destruct T as [T|(T & _)]; rewrite T; congruence.
  - right. apply setup_depth in H as (s4 & s5 & H4 & D1 & D2). exists s4, s5. rewrite T. split; [easy|]. split; congruence.
  - right. rewrite T. apply condition_calm in H1. apply cm_depth in H1. apply setup_depth in H as (s4 & s5 & H4 & D1 & D2).
    exists s4, s5. split; [easy|]. cbn [set_depth s_depth] in *. split; [congruence|]. intros D3 L.
    replace (s_depth s2) with ((s_depth s + 1) mod 2 ^ 32) by congruence. now apply depth_back.
  - right. rewrite T. unfold validate_control_namespace in H. destruct (n_token n) as [|q [|t r]]; try discriminate.
    apply rbind_pass in H as (nm & _ & H). apply sbind_pass in H as (s1 & k1 & H1 & H).
    apply sbind_pass in H as (s2 & c2 & H2 & H). apply add_or_stop_added in H1. apply ad_depth in H1.
    destruct (s_scope s2); [|discriminate]. apply rbind_pass in H as (here & _ & H). destruct (c_last here); [|discriminate].
    apply rbind_pass in H as (bef & _ & H). apply rbind_pass in H as (ins & _ & H). inversion H; subst.
    apply setup_depth in H2 as (s4 & s5 & H4 & D1 & D2). exists s4, s5. split; [easy|]. cbn. split; congruence.
  - left. cbn in T. destruct T as [T|[T|[T|[T|[]]]]]; rewrite <- T; destruct (n_pay n); split; easy.
Qed.

Lemma walk_depth : forall w src l,
  Forall (fun n => forall before after s s' x, validate_ast_node w src before after n s = Pass s' x ->
    s_depth s < 2 ^ 32 -> s_depth s' = s_depth s) l ->
  forall before s s' xs, walk (validate_ast_node w src) before l s = Pass s' xs -> s_depth s < 2 ^ 32 -> s_depth s' = s_depth s.
Proof.
  intros w src l. induction l as [|n l IH]; intros HF before s s' xs H L.
  - cbn in H. now inversion H.
  - inversion HF as [|? ? F1 F2]; subst. apply walk_cons in H as (s1 & x & r & H1 & H2 & ->).
    apply F1 in H1; [|easy]. apply (IH F2) in H2; congruence.
Qed.

Lemma inner_bound : forall n d, d < 2 ^ 32 -> inner_depth n d < 2 ^ 32.
Proof. intros n d H. unfold inner_depth. destruct (n_type n); auto; [reflexivity|]. apply N.mod_lt. discriminate. Qed.

Lemma node_depth : forall w src n before after s s' x, validate_ast_node w src before after n s = Pass s' x ->
  s_depth s < 2 ^ 32 -> s_depth s' = s_depth s.
Proof.
  intros w src n. induction n as [n IH] using node_ind'. intros before after s s' x H L.
  apply node_ran in H as (SC & p & c & -> & R). apply ran_depth in R as [(D & _)|(s1 & s2 & H1 & D1 & D2)]; [easy|].
  apply D2; [|easy]. apply (walk_depth w src _ IH) in H1; [easy|]. rewrite D1. now apply inner_bound.
Qed.

Lemma tree_depth : forall w src l before s s' xs, walk (validate_ast_node w src) before l s = Pass s' xs ->
  s_depth s < 2 ^ 32 -> s_depth s' = s_depth s.
Proof.
  intros w src l before s s' xs. apply walk_depth. apply Forall_forall. intros n _. apply node_depth.
Qed.

(** Each node of a list that passed was checked, in its place. *)
Lemma walk_split : forall w src a n b before s s' xs,
  walk (validate_ast_node w src) before (a ++ n :: b) s = Pass s' xs -> s_depth s < 2 ^ 32 ->
  exists s1 s2 x, s_depth s1 = s_depth s /\
    validate_ast_node w src (rev (map n_type a) ++ before) b n s1 = Pass s2 x.
Proof.
  intros w src a. induction a as [|m a IH]; intros n b before s s' xs H L.
  - apply walk_cons in H as (s1 & x & r & H1 & _). exists s, s1, x. auto.
  - cbn [app] in H. apply walk_cons in H as (s1 & x & r & H1 & H & _). apply node_depth in H1; [|easy].
    apply IH in H; [|congruence]. destruct H as (s2 & s3 & y & D & H). exists s2, s3, y.
    split; [congruence|]. cbn [map rev]. now rewrite <- app_assoc.
Qed.

(** The block below a node was checked. *)
Lemma below_ran : forall w src before after n s s' x, validate_ast_node w src before after n s = Pass s' x ->
  (n_type n = N_EXPR -> n_child n = []) -> n_child n <> [] ->
  exists s1 s2 c, walk (validate_ast_node w src) [] (n_child n) s1 = Pass s2 c /\
    s_depth s1 = inner_depth n (s_depth s).
Proof.
  intros w src before after n s s' x H NC NE. apply node_ran in H as (SC & p & c & -> & R).
  apply ran_depth in R as [(_ & E)|(s1 & s2 & H1 & D1 & _)].
  - destruct SC as [SC|SC]; [contradiction|]. exfalso. auto.
  - exists s1, s2, c. auto.
Qed.

Lemma no_call_below : forall n l, no_call_blocks l -> In n l -> no_call_blocks (n_child n).
Proof. intros n l H I m IT. apply H. apply it_below with n; assumption. Qed.

Lemma in_split_nodes : forall (n : node) l, In n l -> exists a b, l = a ++ n :: b.
Proof. intros n l H. destruct (in_split n l H) as (a & b & E). now exists a, b. Qed.

Lemma enclosed_ran : forall w src b l b' n, enclosed b l b' n ->
  forall before s s' xs, walk (validate_ast_node w src) before l s = Pass s' xs -> s_depth s < 2 ^ 32 ->
  (0 < s_depth s -> b = true) -> no_call_blocks l -> n_type n = N_BREAK \/ n_type n = N_CONTINUE -> b' = true.
Proof.
  intros w src b l b' n H. induction H as [b l n I|b l m b' n I H IH]; intros before s s' xs HW L HB NC T.
  - apply in_split_nodes in I as (a & c & ->). apply walk_split in HW; [|easy].
    destruct HW as (s1 & s2 & x & D & HN). apply node_ran in HN as (_ & p & q & _ & R).
    destruct R as [e s0 p T0|T0|T0 D0|name ret num ext exp ps s0 p q T0|name e i q x0 s0 p T0|e s0 p T0
      |f a0 m s0 x0 T0|e s0 x0 s3 q T0|s0 q T0|e s0 x0 s3 q T0|s0 k q T0|T0]; try (destruct T; congruence).
    + apply HB. now rewrite <- D.
    + destruct T as [T|T]; rewrite T in T0; destruct T0 as [T0|(T0 & _)]; discriminate.
    + destruct T as [T|T]; rewrite T in T0; cbn in T0; intuition discriminate.
  - pose proof (no_call_below _ _ NC I) as NC'.
    assert (NE : n_child m <> []). { intro E. rewrite E in H. inversion H; contradiction. }
    assert (NX : n_type m = N_EXPR -> n_child m = []). { apply NC. now apply it_here. }
    apply in_split_nodes in I as (a & c & ->). apply walk_split in HW; [|easy].
    destruct HW as (s1 & s2 & x & D & HN). apply below_ran in HN; [|assumption|assumption].
    destruct HN as (s3 & s4 & q & HN & D3). apply (IH [] s3 s4 q HN); auto.
    + rewrite D3. apply inner_bound. congruence.
    + rewrite D3. unfold inner_depth, enter. rewrite D. destruct (n_type m); auto. intro X. discriminate X.
Qed.

Lemma below_ran_tree : forall w src t n, in_tree n t -> forall before s s' xs,
  walk (validate_ast_node w src) before t s = Pass s' xs -> s_depth s < 2 ^ 32 -> no_call_blocks t ->
  n_child n <> [] ->
  exists s1 s2 c, walk (validate_ast_node w src) [] (n_child n) s1 = Pass s2 c /\ s_depth s1 < 2 ^ 32.
Proof.
  intros w src t n H. induction H as [l I|m l I H IH]; intros before s s' xs HW L NC NE.
  - assert (NX : n_type n = N_EXPR -> n_child n = []). { apply NC. now apply it_here. }
    apply in_split_nodes in I as (a & b & ->). apply walk_split in HW; [|easy]. destruct HW as (s1 & s2 & x & D & HN).
    apply below_ran in HN; [|assumption|assumption]. destruct HN as (s3 & s4 & q & HN & D3).
    exists s3, s4, q. split; [easy|]. rewrite D3. apply inner_bound. congruence.
  - pose proof (no_call_below _ _ NC I) as NC'.
    assert (NE' : n_child m <> []). { intro E. rewrite E in H. inversion H; contradiction. }
    assert (NX : n_type m = N_EXPR -> n_child m = []). { apply NC. now apply it_here. }
    apply in_split_nodes in I as (a & b & ->). apply walk_split in HW; [|easy]. destruct HW as (s1 & s2 & x & D & HN).
    apply below_ran in HN; [|assumption|assumption]. destruct HN as (s3 & s4 & q & HN & D3).
    apply (IH [] s3 s4 q HN); auto. rewrite D3. apply inner_bound. congruence.
Qed.

Lemma accepted_walk : forall w src ts tree s l, accepted w src ts tree s l ->
  exists s1, walk (validate_ast_node w src) [] tree setup_semantic_state = Pass s1 l.
Proof.
  intros w src ts tree s l (_ & H). unfold validate_ast_tree in H. apply sbind_pass in H as (s1 & l1 & H1 & H).
  apply rbind_pass in H as (s2 & _ & H). apply sbind_pass in H as (s3 & u & _ & H). inversion H; subst. eauto.
Qed.

Lemma jumps_l : forall w src ts tree s l b n, accepted w src ts tree s l -> no_call_blocks tree ->
  enclosed false tree b n -> n_type n = N_BREAK \/ n_type n = N_CONTINUE -> b = true.
Proof.
  intros w src ts tree s l b n A NC E T. apply accepted_walk in A as (s1 & A).
  apply (enclosed_ran w src _ _ _ _ E [] _ _ _ A); auto; [reflexivity|]. intro X. discriminate X.
Qed.

Lemma block_split : forall w src ts tree s l blk a n b, accepted w src ts tree s l -> no_call_blocks tree ->
  block_of tree blk -> blk = a ++ n :: b ->
  exists s1 s2 x, validate_ast_node w src (rev (map n_type a)) b n s1 = Pass s2 x.
Proof.
  intros w src ts tree s l blk a n b A NC B E. apply accepted_walk in A as (s1 & A).
  assert (Q : exists s1 s2 c, walk (validate_ast_node w src) [] blk s1 = Pass s2 c /\ s_depth s1 < 2 ^ 32).
  { destruct B as [|t m I].
    - exists setup_semantic_state, s1, l. split; [easy|reflexivity].
    - apply (below_ran_tree w src t m I [] _ _ _ A); [reflexivity|easy|]. rewrite E. intro X. symmetry in X. now apply app_cons_not_nil in X. }
  destruct Q as (s2 & s3 & c & Q & L). subst blk. apply walk_split in Q; [|easy].
  destruct Q as (s4 & s5 & x & _ & Q). exists s4, s5, x. now rewrite app_nil_r in Q.
Qed.

Lemma dead_code_l : forall w src ts tree s l blk a n b, accepted w src ts tree s l -> no_call_blocks tree ->
  block_of tree blk -> blk = a ++ n :: b -> leaves (n_type n) -> Forall (fun m => idle (n_type m)) b.
Proof.
  intros w src ts tree s l blk a n b A NC B E T. destruct (block_split _ _ _ _ _ _ _ _ _ _ A NC B E) as (s1 & s2 & x & H).
  apply node_ran in H as (_ & p & q & _ & R). unfold leaves in T.
  destruct R as [e s0 p T0 P0 H0|T0 F|T0 D0 F|name ret num ext exp ps s0 p q T0|name e i q x0 s0 p T0|e s0 p T0
      |f a0 m s0 x0 T0|e s0 x0 s3 q T0|s0 q T0|e s0 x0 s3 q T0|s0 k q T0|T0]; auto; try (intuition congruence).
  - now apply return_calm in H0 as (_ & H0).
  - exfalso. cbn in T0. intuition congruence.
Qed.

Lemma has_if_spec : forall a, has_if_before (rev (map n_type a)) = true ->
  exists a1 m cs, a = a1 ++ m :: cs /\ (n_type m = N_IF \/ n_type m = N_ELIF) /\ Forall (fun c => n_type c = N_COMMENT) cs.
Proof.
  intro a. induction a as [|m a IH] using rev_ind; intro H; [discriminate|].
  rewrite map_app, rev_app_distr in H. cbn in H. destruct (n_type m) eqn:T; try discriminate.
  - exists a, m, []. auto.
  - exists a, m, []. auto.
  - apply IH in H as (a1 & m1 & cs & -> & T1 & F). exists a1, m1, (cs ++ [m]). rewrite <- app_assoc. split; [easy|].
    split; [easy|]. apply Forall_app. auto.
Qed.

Lemma else_l : forall w src ts tree s l blk a n b, accepted w src ts tree s l -> no_call_blocks tree ->
  block_of tree blk -> blk = a ++ n :: b -> n_type n = N_ELSE \/ n_type n = N_ELIF ->
  exists a1 m cs, a = a1 ++ m :: cs /\ (n_type m = N_IF \/ n_type m = N_ELIF) /\ Forall (fun c => n_type c = N_COMMENT) cs.
Proof.
  intros w src ts tree s l blk a n b A NC B E T. destruct (block_split _ _ _ _ _ _ _ _ _ _ A NC B E) as (s1 & s2 & x & H).
  apply node_ran in H as (_ & p & q & _ & R). apply has_if_spec.
  destruct R as [e s0 p T0 P0 H0|T0 F|T0 D0 F|name ret num ext exp ps s0 p q T0|name e i q x0 s0 p T0|e s0 p T0
      |f a0 m s0 x0 T0|e s0 x0 s3 q T0|s0 q T0|e s0 x0 s3 q T0|s0 k q T0|T0]; auto; try (intuition congruence).
  exfalso. cbn in T0. intuition congruence.
Qed.

(** Blocks stand where they may and are there where they must. *)
Lemma blocks_l : forall w src ts tree s l n, accepted w src ts tree s l -> no_call_blocks tree -> in_tree n tree ->
  (In (n_type n) [N_IF; N_ELIF; N_ELSE; N_WHILE] -> n_child n <> []) /\
  (n_child n <> [] -> In (n_type n) [N_IF; N_ELIF; N_ELSE; N_WHILE; N_FUNCTION_PROTO; N_NAMESPACE]).
Proof.
  intros w src ts tree s l n A NC I.
  assert (Q : exists blk a b, block_of tree blk /\ blk = a ++ n :: b).
  { assert (exists blk, block_of tree blk /\ In n blk) as (blk & B & IN).
    { clear A NC. induction I as [t I|m t I H (blk & B & IN)].
      - exists t. split; [constructor|easy].
      - exists blk. split; [|easy]. inversion B; subst.
        + apply bo_below. now apply it_here.
        + apply bo_below. apply it_below with m; assumption. }
    apply in_split_nodes in IN as (a & b & E). now exists blk, a, b. }
  destruct Q as (blk & a & b & B & E). destruct (block_split _ _ _ _ _ _ _ _ _ _ A NC B E) as (s1 & s2 & x & H).
  apply node_ran in H as (SC & p & q & _ & R). split.
  - intro T. destruct R as [e s0 p T0 P0 H0|T0 F|T0 D0 F|name ret num ext exp ps s0 p q T0|name e i q x0 s0 p T0|e s0 p T0
      |f a0 m s0 x0 T0|e s0 x0 s3 q T0|s0 q T0|e s0 x0 s3 q T0|s0 k q T0|T0]; auto;
      exfalso; cbn in T; try cbn in T0; intuition congruence.
  - intro NE. destruct SC as [SC|SC]; [contradiction|]. unfold may_have_child in SC.
    destruct (n_type n) eqn:T; try discriminate; cbn; auto 10; exfalso; apply NE; now apply NC.
Qed.
