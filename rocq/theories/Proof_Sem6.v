(** Proofs about the semantic checks: returns. *)
From Coq Require Import List Arith NArith ZArith Bool Lia Ascii String.
From Verif Require Import Base Model_Token Model_Utf8 Model_Classify Model_Literal Model_Parse Model_Sem.
From Verif Require Import Spec_Utf8 Spec_Parse Spec_Sem Spec_Sem2 Proof_Parse2 Proof_Sem Proof_Sem2 Proof_Sem3 Proof_Sem4.
Import ListNotations.
Open Scope list_scope.
Open Scope nat_scope.

(** * Functions keep their result *)

Definition kin (a b : kind) : Prop :=
  match a, b with
  | KFunc f, KFunc g => f_ret g = f_ret f /\ f_external g = f_external f
  | KFunc _, _ | _, KFunc _ => False
  | _, _ => True
  end.
Definition tame (s s' : sst) : Prop := forall k y, nth_error (s_syms s) k = Some y ->
  exists y', nth_error (s_syms s') k = Some y' /\ kin (y_kind y) (y_kind y').

Lemma kin_refl : forall a, kin a a.
Proof. intros [| | |]; cbn; auto. Qed.
Lemma kin_trans : forall a b c, kin a b -> kin b c -> kin a c.
Proof. intros [| | |] [| | |] [| | |]; cbn; try tauto. intros [] []. split; congruence. Qed.

Lemma tame_refl : forall s, tame s s.
Proof. intros s k y E. exists y. split; [exact E|apply kin_refl]. Qed.
Lemma tame_trans : forall a b c, tame a b -> tame b c -> tame a c.
Proof.
  intros a b c H1 H2 k y E. destruct (H1 k y E) as (y1 & E1 & K1).
  destruct (H2 k y1 E1) as (y2 & E2 & K2). exists y2. split; [easy|]. now apply kin_trans with (y_kind y1).
Qed.

Lemma tame_func : forall s s' k y f, tame s s' -> nth_error (s_syms s) k = Some y -> y_kind y = KFunc f ->
  exists y' f', nth_error (s_syms s') k = Some y' /\ y_kind y' = KFunc f' /\ f_ret f' = f_ret f /\ f_external f' = f_external f.
Proof.
  intros s s' k y f T E K. destruct (T k y E) as (y' & E' & K'). rewrite K in K'. cbn in K'.
  destruct (y_kind y') as [|f'| |] eqn:KF; try contradiction. exists y', f'. tauto.
Qed.

Lemma syms_tame : forall s s', s_syms s' = s_syms s -> tame s s'.
Proof. intros s s' H k y E. exists y. rewrite H. split; [exact E|apply kin_refl]. Qed.

Lemma calm_tame : forall s s', calm s s' -> tame s s'.
Proof.
  intros s s' C k y E. destruct (cm_syms _ _ C k y E) as (y' & E' & _ & _ & SK). exists y'. split; [exact E'|].
  destruct (y_kind y), (y_kind y'); cbn in *; tauto.
Qed.

Lemma added_tame : forall s s' k y, added s s' k y -> tame s s'.
Proof.
  intros s s' k y A j z E. exists z. split; [|apply kin_refl]. rewrite (ad_syms _ _ _ _ A). rewrite nth_error_app1; [exact E|].
  apply nth_error_Some. congruence.
Qed.

Lemma set_kind_tame : forall s k kd, (forall y, nth_error (s_syms s) k = Some y -> kin (y_kind y) kd) -> tame s (set_kind s k kd).
Proof.
  intros s k kd H j y E. destruct (Nat.eq_dec j k) as [->|NE].
  - exists (put_kind kd y). split; [now apply nth_set_kind|]. now apply H.
  - exists y. cbn. rewrite nth_upd_other by congruence. split; [exact E|apply kin_refl].
Qed.

Definition fstate (s : sst) : nat * nat * option nat := (s_main s, s_cur s, s_last s).

(** The functions stay and the current one is the same. *)
Record steady (s s' : sst) : Prop := mksteady { sd_tame : tame s s'; sd_state : fstate s' = fstate s }.

Lemma steady_refl : forall s, steady s s.
Proof. intro s. split; [apply tame_refl|reflexivity]. Qed.
Lemma steady_trans : forall a b c, steady a b -> steady b c -> steady a c.
Proof. intros a b c [T1 F1] [T2 F2]. split; [now apply tame_trans with b|congruence]. Qed.

Lemma calm_steady : forall s s', calm s s' -> steady s s'.
Proof.
  intros s s' C. split; [now apply calm_tame|]. unfold fstate. now rewrite (cm_main _ _ C), (cm_cur _ _ C), (cm_last _ _ C).
Qed.
Lemma added_steady : forall s s' k y, added s s' k y -> steady s s'.
Proof.
  intros s s' k y A. split; [now apply added_tame with k y|]. unfold fstate. now rewrite (ad_main _ _ _ _ A), (ad_cur _ _ _ _ A), (ad_last _ _ _ _ A).
Qed.

Lemma reset_steady : forall s s', reset_scope_head s = Ok s' -> steady s s'.
Proof. intros s s' H. unfold reset_scope_head in H. apply bind_ok in H as (h & _ & H). inversion H; subst. split; [now apply syms_tame|reflexivity]. Qed.
Lemma restore_steady : forall s s', restore_parent_scope s = Ok s' -> steady s s'.
Proof.
  intros s s' H. unfold restore_parent_scope in H. apply bind_ok in H as (s1 & H1 & H). apply reset_steady in H1.
  apply steady_trans with s1; [exact H1|]. destruct (s_scope s1); [|inversion H; subst; apply steady_refl].
  apply bind_ok in H as (c & _ & H). inversion H; subst. split; [now apply syms_tame|reflexivity].
Qed.
Lemma adjacent_steady : forall s s', make_adjacent_scope s = Ok s' -> steady s s'.
Proof.
  intros s s' H. unfold make_adjacent_scope in H. destruct (s_scope s); [|discriminate]. inversion H; subst. split; [now apply syms_tame|reflexivity].
Qed.
Lemma child_steady : forall s s', make_child_scope s = Ok s' -> steady s s'.
Proof.
  intros s s' H. unfold make_child_scope in H. destruct (s_scope s).
  - apply bind_ok in H as (c & _ & H). destruct (c_child c); inversion H; subst; (split; [now apply syms_tame|reflexivity]).
  - unfold make_scope in H. apply bind_ok in H as (c & _ & H). destruct (c_child c); inversion H; subst; (split; [now apply syms_tame|reflexivity]).
Qed.

Lemma setup_steady : forall sub s s' c, setup_and_validate sub s = Pass s' c ->
  exists s1 s2, sub s1 = Pass s2 c /\ steady s s1 /\ steady s2 s'.
Proof.
  intros sub s s' c H. apply setup_pass in H as (s1 & s2 & s3 & s4 & H1 & H2 & H3 & H4 & H5).
  exists s1, s2. split; [easy|]. apply child_steady in H1. apply reset_steady in H3. apply restore_steady in H4. apply adjacent_steady in H5.
  split; [easy|]. apply steady_trans with s3; auto. now apply steady_trans with s4.
Qed.

Lemma params_loop_steady : forall src ext ps s s' l, params_loop src ext s ps = Pass s' l -> steady s s'.
Proof.
  intros src ext ps. induction ps as [|p ps IH]; intros s s' l H; cbn [params_loop] in H; [inversion H; subst; apply steady_refl|].
  apply rbind_pass in H as (t & _ & H). destruct t as [t|]; [|unwind H]. apply rbind_pass in H as ((n, v) & _ & H).
  apply sbind_pass in H as (s1 & k & H1 & H). apply sbind_pass in H as (s2 & l2 & H2 & H). apply IH in H2.
  inversion H; subst. apply add_param_added in H1. apply added_steady in H1. now apply steady_trans with s1.
Qed.

Lemma func_params_steady : forall src s ext num ps s' l, validate_func_params src s ext num ps = Pass s' l -> steady s s'.
Proof.
  intros src s ext num ps s' l H. unfold validate_func_params in H. destruct (num =? 0)%N; [inversion H; subst; apply steady_refl|].
  apply rbind_pass in H as (s1 & H1 & H). apply sbind_pass in H as (s2 & l2 & H2 & H).
  apply rbind_pass in H as (s3 & H3 & H). inversion H; subst. apply child_steady in H1. apply params_loop_steady in H2.
  apply restore_steady in H3. apply steady_trans with s1; auto. now apply steady_trans with s2.
Qed.

Lemma func_head_steady : forall src s name ret num ext exp ps s' k l, func_head src s name ret num ext exp ps = Pass s' (k, l) ->
  tame s s' /\ fstate s' = (s_main s, k, Some (s_cur s)) /\
  exists y f, nth_error (s_syms s') k = Some y /\ y_kind y = KFunc f /\ f_external f = ext.
Proof.
  intros src s name ret num ext exp ps s' k l H. unfold func_head in H. apply rbind_pass in H as (top & _ & H).
  destruct ((exp || ext) && negb top); [discriminate|]. apply sbind_pass in H as (s1 & t & H1 & H).
  apply return_type_same in H1. subst s1. apply rbind_pass in H as (n & _ & H). cbv zeta in H.
  apply sbind_pass in H as (s2 & k2 & H2 & H). apply sbind_pass in H as (s3 & l3 & H3 & H).
  apply func_params_steady in H3 as [T3 F3]. apply add_or_stop_added in H2. assert (k2 = k) by (now inversion H). subst k2.
  inversion H; subst s' l. clear H.
  assert (E2 : nth_error (s_syms s2) k = Some (mksym n (t_loc name) (KFunc (mkfunc ext exp t num [] false)))).
  { rewrite (ad_syms _ _ _ _ H2), (ad_k _ _ _ _ H2). rewrite nth_error_app2, Nat.sub_diag by lia. reflexivity. }
  destruct (tame_func _ _ k _ _ T3 E2 eq_refl) as (y3 & f3 & E3 & K3 & R3 & X3). split; [|split].
  - apply tame_trans with s2; [now apply added_tame with k (mksym n (t_loc name) (KFunc (mkfunc ext exp t num [] false)))|]. apply tame_trans with s3; [exact T3|].
    apply set_kind_tame. intros y E. rewrite E3 in E. inversion E; subst y3. rewrite K3. cbn in *. split; congruence.
  - unfold fstate in *. cbn [set_kind set_syms s_main s_cur s_last set_funcs] in *. rewrite F3. now rewrite (ad_main _ _ _ _ H2).
  - eexists _, _. split; [apply nth_set_kind; exact E3|]. split; reflexivity.
Qed.

Lemma var_def_steady : forall w src s tok te name e i c x s' p,
  validate_stmt_var_def w src s tok te name e i c x = Pass s' p -> steady s s'.
Proof.
  intros w src s tok te name e i c x s' p H. unfold validate_stmt_var_def in H. destruct te as [|t0 rest]; [discriminate|].
  apply rbind_pass in H as (ty & _ & H). destruct ty as [ty|].
  - unfold validate_stmt_type_alias in H. destruct (negb c); [unwind H|]. cbv zeta in H.
    destruct (negb _); [unwind H|]. destruct tok as [|t [|q r]]; try discriminate.
    apply rbind_pass in H as (tt & _ & H). apply rbind_pass in H as (n & _ & H).
    apply sbind_pass in H as (s1 & k & H1 & H). inversion H; subst. apply add_or_stop_added in H1. now apply added_steady in H1.
  - apply sbind_pass in H as (s1 & y & H1 & H). apply sbind_pass in H as (s2 & (k, v) & H2 & H). cbv zeta in H.
    apply sbind_pass in H as (s3 & u & H3 & H). unfold is_expr_compatible_with_var in H3. destruct (ty_eqb _ _); [|discriminate].
    inversion H3; subst s3. clear H3.
    assert (D2 : steady s1 s2 /\ exists z w, nth_error (s_syms s2) k = Some z /\ y_kind z = KVar w).
    { unfold node_to_var in H2. apply sbind_pass in H2 as (s4 & u4 & H4 & H2). apply void_same in H4. subst s4.
      apply sbind_pass in H2 as (sd & td & HD & H2).
      assert (sd = s1) as ->.
      { unfold declared_type in HD. destruct i; [now inversion HD|]. apply rbind_pass in HD as (o & _ & HD).
        destruct o; [now inversion HD|unwind HD]. }
      destruct name as [|nt name]; [discriminate|]. apply rbind_pass in H2 as ((n, v5) & _ & H2).
      apply sbind_pass in H2 as (s6 & k6 & H6 & H2). inversion H2; subst. apply add_or_stop_added in H6. split; [now apply added_steady in H6|].
      exists (mksym n (t_loc nt) (KVar v)), v. split; [|reflexivity]. rewrite (ad_syms _ _ _ _ H6), (ad_k _ _ _ _ H6). rewrite nth_error_app2, Nat.sub_diag by lia. reflexivity. }
    destruct D2 as (D2 & z & vz & EZ & KZ). apply expr_calm in H1. apply calm_steady in H1. apply steady_trans with s1; [exact H1|].
    apply steady_trans with s2; [exact D2|].
    assert (D3 : steady s2 (set_kind s2 k (KVar (mark_defined (x_cexpr y) v)))).
    { split; [|reflexivity]. apply set_kind_tame. intros y0 E. rewrite EZ in E. inversion E; subst y0. now rewrite KZ. }
    destruct (is_const_lit y && negb i).
    + apply sbind_pass in H as (s7 & u7 & H7 & H). inversion H; subst. apply warn_calm in H7. apply calm_steady in H7. now apply steady_trans with (set_kind s2 k (KVar (mark_defined (x_cexpr y) v))).
    + inversion H; subst. exact D3.
Qed.

Lemma var_assign_calm : forall w src s tok e s' p, validate_stmt_var_assign w src s tok e = Pass s' p -> calm s s'.
Proof.
  intros w src s tok e s' p H. unfold validate_stmt_var_assign in H. destruct tok as [|t tok]; [discriminate|].
  apply sbind_pass in H as (s1 & (k, v) & H1 & H). apply find_var_spec in H1 as (-> & nm & y & _ & _ & HY & HK & _).
  destruct (v_const v); [discriminate|]. cbv zeta in H. apply sbind_pass in H as (s2 & x & H2 & H).
  apply sbind_pass in H as (s3 & u3 & H3 & H). apply sbind_pass in H as (s4 & u4 & H4 & H).
  unfold is_expr_compatible_with_var in H3. destruct (ty_eqb _ _); [|discriminate]. inversion H3; subst s3.
  assert (s4 = s2) as ->.
  { unfold is_redundant_reassign in H4. destruct x; try (now inversion H4). destruct (k =? sym)%nat; [discriminate|now inversion H4]. }
  inversion H; subst s' p. apply expr_calm in H2. apply calm_trans with (set_kind s k (KVar (mark_reassigned v))); [|exact H2].
  apply calm_kind with y; [easy|]. rewrite HK. cbn. tauto.
Qed.

(** * What happens to the current function at a node *)

Inductive moves (sub : sst -> sres (list tnode)) (n : node) (s s' : sst) (p : tpay) (c : list tnode) : Prop :=
| mv_leaf : n_type n <> N_FUNCTION_PROTO -> (may_have_child n = true -> n_type n = N_EXPR) -> steady s s' -> (forall k ks, p <> XProto k ks) -> moves sub n s s' p c
| mv_block : forall s1 s2, n_type n <> N_FUNCTION_PROTO -> (forall k ks, p <> XProto k ks) -> n_type n <> N_RETURN -> sub s1 = Pass s2 c -> steady s s1 -> (tame s1 s2 -> steady s2 s') -> moves sub n s s' p c
| mv_func : forall name ret num ext exp ps k ks s1 s2 y f, n_type n = N_FUNCTION_PROTO -> n_pay n = PProto name ret num ext exp ps ->
    p = XProto k ks -> sub s1 = Pass s2 c -> tame s s1 -> fstate s1 = (s_main s, k, Some (s_cur s)) ->
    (exists y1 f1, nth_error (s_syms s1) k = Some y1 /\ y_kind y1 = KFunc f1 /\ f_external f1 = ext) ->
    nth_error (s_syms s') (s_cur s2) = Some y -> y_kind y = KFunc f -> tame s2 s' ->
    (f_external f = true /\ fstate s' = fstate s2 \/
     f_external f = false /\ (f_ret f = TVoid <-> returned_value (n_child n) = false) /\
       exists l, s_last s2 = Some l /\ fstate s' = (s_main s2, l, s_last s2)) ->
    moves sub n s s' p c.

Lemma return_pay : forall w src s tok e after s' p, validate_stmt_return w src s tok e after = Pass s' p -> forall k ks, p <> XProto k ks.
Proof.
  intros w src s tok e after s' p H. unfold validate_stmt_return in H. apply sbind_pass in H as (s1 & u & H1 & H). destruct e as [e|].
  - apply sbind_pass in H as (s2 & x & H2 & H). apply sbind_pass in H as (s3 & u3 & H3 & H).
    apply sbind_pass in H as (s4 & u4 & H4 & H). inversion H; subst. discriminate.
  - apply rbind_pass in H as ((y, f) & _ & H). destruct (negb (ty_eqb (f_ret f) TVoid)); [unwind H|].
    apply sbind_pass in H as (s4 & u4 & H4 & H). inversion H; subst. discriminate.
Qed.
Lemma var_def_pay : forall w src s tok te name e i c x s' p,
  validate_stmt_var_def w src s tok te name e i c x = Pass s' p -> forall k ks, p <> XProto k ks.
Proof.
  intros w src s tok te name e i c x s' p H. unfold validate_stmt_var_def in H. destruct te as [|t0 rest]; [discriminate|].
  apply rbind_pass in H as (ty & _ & H). destruct ty as [ty|].
  - unfold validate_stmt_type_alias in H. destruct (negb c); [unwind H|]. cbv zeta in H.
    destruct (negb _); [unwind H|]. destruct tok as [|t [|q r]]; try discriminate.
    apply rbind_pass in H as (tt & _ & H). apply rbind_pass in H as (n & _ & H).
    apply sbind_pass in H as (s1 & k & H1 & H). inversion H; subst. discriminate.
  - apply sbind_pass in H as (s1 & y & H1 & H). apply sbind_pass in H as (s2 & (k, v) & H2 & H). cbv zeta in H.
    apply sbind_pass in H as (s3 & u & H3 & H). destruct (is_const_lit y && negb i).
    + apply sbind_pass in H as (s7 & u7 & H7 & H). inversion H; subst. discriminate.
    + inversion H; subst. discriminate.
Qed.
Lemma var_assign_pay : forall w src s tok e s' p, validate_stmt_var_assign w src s tok e = Pass s' p -> forall k ks, p <> XProto k ks.
Proof.
  intros w src s tok e s' p H. unfold validate_stmt_var_assign in H. destruct tok as [|t tok]; [discriminate|].
  apply sbind_pass in H as (s1 & (k, v) & H1 & H). destruct (v_const v); [discriminate|]. cbv zeta in H. apply sbind_pass in H as (s2 & x & H2 & H).
  apply sbind_pass in H as (s3 & u3 & H3 & H). apply sbind_pass in H as (s4 & u4 & H4 & H). inversion H; subst. discriminate.
Qed.

Lemma ran_moves : forall w src sub before after n s s' p c, ran w src sub before after n s s' p c -> moves sub n s s' p c.
Proof.
  intros w src sub before after n s s' p c H.
  destruct H as [e s' p T P H|T F|T D F|name ret num ext exp ps s' p c T P H|name e i c x s' p T P H|e s' p T P H
    |f a m s' x T P H|e s1 x s' c T P NE H1 H|s' c T B NE H|e s1 x s2 c T P NE H1 H|s' k c T H|T].
  - apply mv_leaf; unfold may_have_child; rewrite ?T; try discriminate. 1: (apply return_calm in H as (H & _); now apply calm_steady). exact (return_pay _ _ _ _ _ _ _ _ H).
  - apply mv_leaf; unfold may_have_child; rewrite ?T; try discriminate. apply steady_refl.
  - apply mv_leaf; unfold may_have_child; destruct T as [T|T]; rewrite ?T; try discriminate; apply steady_refl.
  - unfold validate_stmt_func_decl in H. cbv zeta in H.
    apply sbind_pass in H as (s1 & (k, l) & H1 & H). apply sbind_pass in H as (s2 & c2 & H2 & H).
    apply sbind_pass in H as (s3 & u & H3 & H). inversion H; subst. clear H. apply func_head_steady in H1 as (T1 & F1 & Y1).
    apply setup_steady in H2 as (s4 & s5 & H4 & [T4 F4] & [T5 F5]).
    unfold func_end in H3. apply rbind_pass in H3 as ((y, f) & HC & H3). unfold current_func in HC.
    apply bind_ok in HC as (y0 & HY & HC). apply deref_ok in HY. destruct (y_kind y0) as [|f0| |] eqn:K0; try discriminate. inversion HC; subst y0 f0.
    destruct Y1 as (y1 & f1 & EY1 & KY1 & XY1). destruct (tame_func _ _ k y1 f1 T4 EY1 KY1) as (y4 & f4 & E4 & K4 & R4 & X4).
    assert (C5 : s_cur s2 = s_cur s5) by (unfold fstate in F5; congruence). rewrite C5 in HY.
    assert (S3 : s_syms s3 = s_syms s2 /\ (f_external f = true /\ fstate s3 = fstate s5 \/
       f_external f = false /\ (f_ret f = TVoid <-> returned_value (n_child n) = false) /\
       exists l, s_last s5 = Some l /\ fstate s3 = (s_main s5, l, s_last s5))).
    { destruct (f_external f); [inversion H3; subst; split; auto|].
      destruct (negb (returned_value (n_child n)) && negb (ty_eqb (f_ret f) TVoid)) eqn:B1; [discriminate|].
      destruct (returned_value (n_child n) && ty_eqb (f_ret f) TVoid) eqn:B2; [discriminate|].
      assert (L5 : s_last s2 = s_last s5 /\ s_main s2 = s_main s5) by (unfold fstate in F5; split; congruence). destruct L5 as [L5 M5].
      destruct (s_last s2) as [q|] eqn:LQ; [|discriminate]. inversion H3; subst s3. split; [reflexivity|]. right. split; [reflexivity|]. split.
      - destruct (returned_value (n_child n)); cbn in B1, B2; split; intro X; try discriminate X; try reflexivity.
        + rewrite X in B2. discriminate B2.
        + destruct (ty_eqb (f_ret f) TVoid) eqn:TV; [|discriminate B1]. now apply ty_eqb_eq.
      - exists q. split; [congruence|]. unfold fstate. cbn. congruence. }
    destruct S3 as (S3 & S4).
    apply mv_func with name ret num ext exp ps k l s4 s5 y f; auto.
    + apply tame_trans with s1; [|exact T4]. exact T1.
    + rewrite F4. exact F1.
    + exists y4, f4. split; [easy|]. split; [easy|congruence].
    + cbn. rewrite S3. exact HY.
    + apply tame_trans with s2; [exact T5|]. apply syms_tame. exact S3.
  - apply mv_leaf; unfold may_have_child; rewrite ?T; try discriminate; [now apply var_def_steady in H|exact (var_def_pay _ _ _ _ _ _ _ _ _ _ _ _ H)].
  - apply mv_leaf; unfold may_have_child; rewrite ?T; try discriminate; [apply var_assign_calm in H; now apply calm_steady|exact (var_assign_pay _ _ _ _ _ _ _ H)].
  - apply mv_leaf; unfold may_have_child; rewrite ?T; try discriminate; auto. apply expr_calm in H; now apply calm_steady.
  - apply condition_calm in H1. apply calm_steady in H1. apply setup_steady in H as (s4 & s5 & H4 & D1 & D2).
    apply mv_block with s4 s5; auto; try discriminate; try (destruct T as [T|(T & _)]; rewrite T; discriminate). now apply steady_trans with s1.
  - apply setup_steady in H as (s4 & s5 & H4 & D1 & D2). apply mv_block with s4 s5; auto; try discriminate; rewrite T; discriminate.
  - apply condition_calm in H1. apply calm_steady in H1. apply setup_steady in H as (s4 & s5 & H4 & D1 & D2).
    apply mv_block with s4 s5; auto; try discriminate; try (rewrite T; discriminate).
    + apply steady_trans with s1; [|exact D1]. destruct H1 as [X Y]. split; [|exact Y]. exact X.
    + intros _. destruct D2 as [X Y]. split; [|exact Y]. exact X.
  - unfold validate_control_namespace in H. destruct (n_token n) as [|q [|t r]]; try discriminate.
    apply rbind_pass in H as (nm & _ & H). apply sbind_pass in H as (s1 & k1 & H1 & H).
    apply sbind_pass in H as (s2 & c2 & H2 & H). apply add_or_stop_added in H1.
    destruct (s_scope s2); [|discriminate]. apply rbind_pass in H as (here & _ & H). destruct (c_last here); [|discriminate].
    apply rbind_pass in H as (bef & _ & H). apply rbind_pass in H as (ins & HI & H). inversion H; subst.
    apply setup_steady in H2 as (s4 & s5 & H4 & D1 & D2).
    assert (E1 : nth_error (s_syms s1) k = Some (mksym nm (t_loc t) (KSpace None))).
    { rewrite (ad_syms _ _ _ _ H1), (ad_k _ _ _ _ H1). rewrite nth_error_app2, Nat.sub_diag by lia. reflexivity. }
    apply mv_block with s4 s5; auto; try discriminate; try (rewrite T; discriminate).
    + apply steady_trans with s1; [now apply added_steady in H1|exact D1].
    + intro TM. apply steady_trans with s2; [exact D2|]. split; [|reflexivity]. apply set_kind_tame. intros y E.
      assert (TT : tame s1 s2). { apply tame_trans with s4; [apply D1|]. apply tame_trans with s5; [exact TM|apply D2]. }
      destruct (TT k _ E1) as (y1 & E2 & K2). rewrite E in E2. inversion E2; subst y1. cbn in K2. destruct (y_kind y); cbn; auto.
  - cbn in T. apply mv_leaf; unfold may_have_child; [| |apply steady_refl|discriminate]; destruct T as [T|[T|[T|[T|[]]]]]; rewrite <- T; discriminate.
Qed.

(** Functions stay through all nodes. *)
Lemma node_tame : forall w src n before after s s' x, validate_ast_node w src before after n s = Pass s' x -> tame s s'.
Proof.
  intros w src n. induction n as [n IH] using node_ind'. intros before after s s' x H.
  apply node_ran in H as (_ & p & c & -> & R). apply ran_moves in R.
  assert (W : forall l, Forall (fun n => forall before after s s' x, validate_ast_node w src before after n s = Pass s' x -> tame s s') l ->
    forall before s s' xs, walk (validate_ast_node w src) before l s = Pass s' xs -> tame s s').
  { clear. intros l F. induction F as [|n l Fn Fl IHl]; intros before s s' xs H; [cbn in H; inversion H; apply tame_refl|].
    apply walk_cons in H as (s1 & x & r & H1 & H2 & ->). apply tame_trans with s1; [now apply (Fn _ _ _ _ _ H1)|now apply (IHl _ _ _ _ H2)]. }
  destruct R as [T C D XP|s1 s2 T XP TR H1 D1 D2|name ret num ext exp ps k ks s1 s2 y f T P -> H1 T1 F1 Y1 EY KY T2 Q].
  - apply D.
  - pose proof (W _ IH _ _ _ _ H1) as TM. apply tame_trans with s1; [apply D1|]. apply tame_trans with s2; [exact TM|]. now apply D2.
  - apply tame_trans with s1; [exact T1|]. apply tame_trans with s2; [|exact T2]. now apply (W _ IH _ _ _ _ H1).
Qed.
Lemma walk_tame : forall w src l before s s' xs, walk (validate_ast_node w src) before l s = Pass s' xs -> tame s s'.
Proof.
  intros w src l. induction l as [|n l IHl]; intros before s s' xs H; [cbn in H; inversion H; apply tame_refl|].
  apply walk_cons in H as (s1 & x & r & H1 & H2 & ->). apply tame_trans with s1; [now apply node_tame in H1|now apply IHl in H2].
Qed.

(** A return fits the function k. *)
Definition agrees (sf : sst) (k main : nat) (x : tnode) : Prop :=
  (exists y f, nth_error (s_syms sf) k = Some y /\ y_kind y = KFunc f /\ return_fits (f_ret f) x) /\
  (k = main -> forall v, tn_pay x = XExpr v -> x_ty v = TInt).

Lemma agrees_tame : forall s s' k main x, tame s s' -> agrees s k main x -> agrees s' k main x.
Proof.
  intros s s' k main x T ((y & f & E & K & R) & M). split; [|exact M].
  destruct (tame_func _ _ k y f T E K) as (y' & f' & E' & K' & R' & _). exists y', f'. split; [easy|]. split; [easy|]. now rewrite R'.
Qed.

Lemma return_agrees : forall w src before after n s s' x, validate_ast_node w src before after n s = Pass s' x ->
  n_type n = N_RETURN -> agrees s' (s_cur s) (s_main s) x.
Proof.
  intros w src before after n s s' x H T. apply node_ran in H as (_ & p & c & -> & R).
  destruct R as [e s' p T0 P H|T0 F|T0 D F|name ret num ext exp ps s' p c T0 P H|name e i c x s' p T0 P H|e s' p T0 P H
    |f a m s' x T0 P H|e s1 x s' c T0 P NE H1 H|s' c T0 B NE H|e s1 x s2 c T0 P NE H1 H|s' k c T0 H|T0]; try (rewrite T in T0; try discriminate).
  - unfold validate_stmt_return in H. apply sbind_pass in H as (s1 & u & H1 & H).
    assert (s1 = s) as ->. { destruct after; [now inversion H1|]. now apply sane_same in H1 as (? & _). }
    destruct e as [e|].
    + apply sbind_pass in H as (s2 & v & H2 & H). apply sbind_pass in H as (s3 & u3 & H3 & H).
      apply sbind_pass in H as (s4 & u4 & H4 & H). apply dead_code_spec in H4 as (-> & F). pose proof (return_ok_same _ _ _ _ H3). subst s3.
      inversion H; subst s2 p. apply expr_calm in H2. apply calm_steady in H2 as [T2 F2].
      assert (CM : s_cur s' = s_cur s /\ s_main s' = s_main s) by (unfold fstate in F2; split; congruence). destruct CM as [CC CM].
      unfold is_valid_return_expr in H3. rewrite CC, CM in H3.
      destruct ((s_cur s =? s_main s) && negb (ty_eqb (x_ty v) TInt)) eqn:B1; [discriminate|].
      apply rbind_pass in H3 as ((y, f) & HC & H3). unfold current_func in HC. rewrite CC in HC.
      apply bind_ok in HC as (y0 & HY & HC). apply deref_ok in HY. destruct (y_kind y0) as [|f0| |] eqn:K0; try discriminate. inversion HC; subst y0 f0.
      split.
      * exists y, f. split; [exact HY|]. split; [exact K0|]. left. exists v. split; [reflexivity|]. intro NV.
        destruct (ty_eqb (f_ret f) TVoid) eqn:BV; [apply ty_eqb_eq in BV; contradiction|]. cbn in H3.
        destruct (ty_eqb (x_ty v) (f_ret f)) eqn:BR; [now apply ty_eqb_eq|discriminate H3].
      * intros EM v' EV. cbn in EV. inversion EV; subst v'. apply Nat.eqb_eq in EM. rewrite EM in B1.
        destruct (ty_eqb (x_ty v) TInt) eqn:BI; [now apply ty_eqb_eq|discriminate B1].
    + apply rbind_pass in H as ((y, f) & HC & H). unfold current_func in HC.
      apply bind_ok in HC as (y0 & HY & HC). apply deref_ok in HY. destruct (y_kind y0) as [|f0| |] eqn:K0; try discriminate. inversion HC; subst y0 f0.
      destruct (ty_eqb (f_ret f) TVoid) eqn:BV; cbn [negb] in H; [|unwind H]. apply ty_eqb_eq in BV.
      apply sbind_pass in H as (s4 & u4 & H4 & H). apply dead_code_spec in H4 as (-> & F). inversion H; subst s' p. split.
      * exists y, f. split; [exact HY|]. split; [exact K0|]. now right.
      * intros _ v EV. discriminate EV.
  - destruct T0 as [T0|T0]; discriminate.
  - destruct T0 as [T0|(T0 & _)]; discriminate.
  - cbn in T0. intuition discriminate.
Qed.

Lemma functionless_cons : forall n l, functionless (n :: l) -> n_type n <> N_FUNCTION_PROTO /\ functionless (n_child n) /\ functionless l.
Proof.
  intros n l H. split; [|split].
  - apply H. apply it_here. now left.
  - intros m I. apply H. apply it_below with n; [now left|exact I].
  - intros m I. apply H. destruct I as [l I|q l I J]; [apply it_here; now right|apply it_below with q; [now right|exact J]].
Qed.
Lemma flat_cons : forall n l, flat (n :: l) -> (n_type n = N_FUNCTION_PROTO -> functionless (n_child n)) /\ flat (n_child n) /\ flat l.
Proof.
  intros n l H. split; [|split].
  - apply H. apply it_here. now left.
  - intros m I. apply H. apply it_below with n; [now left|exact I].
  - intros m I. apply H. destruct I as [l I|q l I J]; [apply it_here; now right|apply it_below with q; [now right|exact J]].
Qed.
Lemma calls_cons : forall n l, no_call_blocks (n :: l) -> (n_type n = N_EXPR -> n_child n = []) /\ no_call_blocks (n_child n) /\ no_call_blocks l.
Proof.
  intros n l H. split; [|split].
  - apply H. apply it_here. now left.
  - intros m I. apply H. apply it_below with n; [now left|exact I].
  - intros m I. apply H. destruct I as [l I|q l I J]; [apply it_here; now right|apply it_below with q; [now right|exact J]].
Qed.
Lemma externals_cons : forall n l, no_externals (n :: l) ->
  (forall name ret num ext exp ps, n_pay n = PProto name ret num ext exp ps -> ext = false) /\ no_externals (n_child n) /\ no_externals l.
Proof.
  intros n l H. split; [|split].
  - intros name ret num ext exp ps. apply H. apply it_here. now left.
  - intros m name ret num ext exp ps I. apply H. apply it_below with n; [now left|exact I].
  - intros m name ret num ext exp ps I. apply H. destruct I as [l I|q l I J]; [apply it_here; now right|apply it_below with q; [now right|exact J]].
Qed.

(** Without functions: all returns belong to the current one. *)
Definition plain_node (w : world) (src : text) (n : node) : Prop := forall before after s s' x,
  validate_ast_node w src before after n s = Pass s' x -> functionless [n] -> no_call_blocks [n] ->
  fstate s' = fstate s /\ (forall m y, paired m y [n] [x] -> forall k ks, tn_pay y <> XProto k ks) /\
  forall m y, paired m y [n] [x] -> n_type m = N_RETURN -> agrees s' (s_cur s) (s_main s) y.

Lemma single_functionless : forall n l, functionless (n :: l) -> functionless [n].
Proof.
  intros n l H m I. apply H. inversion I as [q J|q r J K]; subst.
  - apply it_here. destruct J as [->|[]]; now left.
  - apply it_below with q; [|exact K]. destruct J as [->|[]]; now left.
Qed.
Lemma single_calls : forall n l, no_call_blocks (n :: l) -> no_call_blocks [n].
Proof.
  intros n l H m I. apply H. inversion I as [q J|q r J K]; subst.
  - apply it_here. destruct J as [->|[]]; now left.
  - apply it_below with q; [|exact K]. destruct J as [->|[]]; now left.
Qed.
Lemma single_flat : forall n l, flat (n :: l) -> flat [n].
Proof.
  intros n l H m I. apply H. inversion I as [q J|q r J K]; subst.
  - apply it_here. destruct J as [->|[]]; now left.
  - apply it_below with q; [|exact K]. destruct J as [->|[]]; now left.
Qed.
Lemma single_externals : forall n l, no_externals (n :: l) -> no_externals [n].
Proof.
  intros n l H m name ret num ext exp ps I. apply H. inversion I as [q J|q r J K]; subst.
  - apply it_here. destruct J as [->|[]]; now left.
  - apply it_below with q; [|exact K]. destruct J as [->|[]]; now left.
Qed.

Lemma plain_walk : forall w src l, Forall (plain_node w src) l -> forall before s s' xs,
  walk (validate_ast_node w src) before l s = Pass s' xs -> functionless l -> no_call_blocks l ->
  fstate s' = fstate s /\ (forall m y, paired m y l xs -> forall k ks, tn_pay y <> XProto k ks) /\
  forall m y, paired m y l xs -> n_type m = N_RETURN -> agrees s' (s_cur s) (s_main s) y.
Proof.
  intros w src l F. induction F as [|n l Fn Fl IH]; intros before s s' xs H FL NC.
  - cbn in H. inversion H; subst. split; [reflexivity|]. split; intros m y P; inversion P.
  - apply walk_cons in H as (s1 & x & r & H1 & H2 & ->). pose proof (walk_tame _ _ _ _ _ _ _ H2) as T2.
    destruct (Fn _ _ _ _ _ H1 (single_functionless _ _ FL) (single_calls _ _ NC)) as (F1 & X1 & P1).
    apply functionless_cons in FL as (_ & _ & FL). apply calls_cons in NC as (_ & _ & NC).
    destruct (IH _ _ _ _ H2 FL NC) as (F2 & X2 & P2).
    assert (CM : s_cur s1 = s_cur s /\ s_main s1 = s_main s) by (unfold fstate in F1; split; congruence). destruct CM as [CC CM].
    split; [congruence|]. split.
    { intros m y P. inversion P as [? ?|? ? ? ? P'|? ? ? ? P']; subst; [apply X1 with n; constructor|now apply X2 with m|apply X1 with m; now apply pa_below]. }
    intros m y P T. inversion P as [? ?|? ? ? ? P'|? ? ? ? P']; subst.
    + apply agrees_tame with s1; [exact T2|]. apply P1 with n; [constructor|exact T].
    + rewrite <- CC, <- CM. now apply P2 with m.
    + apply agrees_tame with s1; [exact T2|]. apply P1 with m; [now apply pa_below|exact T].
Qed.

Lemma plain_nodes : forall w src n, plain_node w src n.
Proof.
  intros w src n. induction n as [n IH] using node_ind'. intros before after s s' x H FL NC.
  pose proof H as H0. apply node_ran in H as (SC & p & c & -> & R). pose proof (ran_moves _ _ _ _ _ _ _ _ _ _ R) as M.
  apply functionless_cons in FL as (FT & FC & _). apply calls_cons in NC as (NT & NCC & _).
  destruct M as [T C D XP|s1 s2 T XP TR H1 D1 D2|name ret num ext exp ps k ks s1 s2 y f T P E H1 T1 F1 Y1 EY KY T2 Q]; [| |contradiction].
  - assert (EC : n_child n = []). { destruct SC as [SC|SC]; [exact SC|]. auto. } split; [apply D|]. split.
    { intros m y P. inversion P as [? ?|? ? ? ? P'|? ? ? ? P']; subst; [exact XP|inversion P'|]. rewrite EC in P'. inversion P'. }
    intros m y P TM. inversion P as [? ?|? ? ? ? P'|? ? ? ? P']; subst.
    + now apply return_agrees in H0.
    + inversion P'.
    + rewrite EC in P'. inversion P'.
  - pose proof (walk_tame _ _ _ _ _ _ _ H1) as TM.
    destruct (plain_walk _ _ _ IH _ _ _ _ H1 FC NCC) as (F1 & X1 & P1). destruct (D2 TM) as [T2 F2]. destruct D1 as [T1 F0].
    assert (CM : s_cur s1 = s_cur s /\ s_main s1 = s_main s) by (unfold fstate in F0; split; congruence). destruct CM as [CC CM].
    split; [congruence|]. split.
    { intros m y P. inversion P as [? ?|? ? ? ? P'|? ? ? ? P']; subst; [exact XP|inversion P'|now apply X1 with m]. }
    intros m y P TY. inversion P as [? ?|? ? ? ? P'|? ? ? ? P']; subst.
    + contradiction.
    + inversion P'.
    + apply agrees_tame with s2; [exact T2|]. rewrite <- CC, <- CM. now apply P1 with m.
Qed.

Lemma paired_single : forall m y n x, paired m y [n] [x] -> m = n /\ y = x \/ paired m y (n_child n) (tn_child x).
Proof. intros m y n x P. inversion P as [? ?|? ? ? ? P'|? ? ? ? P']; subst; [now left|inversion P'|now right]. Qed.

(** With functions, but none inside of another one. *)
Definition function_good (sf : sst) (f : node) (fx : tnode) : Prop :=
  forall name ret num ext exp ps k ks, n_pay f = PProto name ret num ext exp ps -> tn_pay fx = XProto k ks ->
  exists y g, nth_error (s_syms sf) k = Some y /\ y_kind y = KFunc g /\
    (forall m z, paired m z (n_child f) (tn_child fx) -> n_type m = N_RETURN -> return_fits (f_ret g) z) /\
    (ext = false -> (f_ret g = TVoid <-> returned_value (n_child f) = false)) /\ f_external g = ext.

Lemma good_tame : forall s s' f fx, tame s s' -> function_good s f fx -> function_good s' f fx.
Proof.
  intros s s' f fx T G name ret num ext exp ps k ks P X. destruct (G name ret num ext exp ps k ks P X) as (y & g & E & K & A & B & X1).
  destruct (tame_func _ _ k y g T E K) as (y' & g' & E' & K' & R' & X'). exists y', g'. rewrite R', X'. auto.
Qed.

Definition flat_node (w : world) (src : text) (n : node) : Prop := forall before after s s' x,
  validate_ast_node w src before after n s = Pass s' x -> flat [n] -> no_call_blocks [n] ->
  (forall f fx, paired f fx [n] [x] -> function_good s' f fx) /\
  (no_externals [n] -> s_cur s' = s_cur s /\ s_main s' = s_main s /\
    forall m y, in_main m y [n] [x] -> n_type m = N_RETURN -> agrees s' (s_cur s) (s_main s) y).

Lemma flat_walk : forall w src l, Forall (flat_node w src) l -> forall before s s' xs,
  walk (validate_ast_node w src) before l s = Pass s' xs -> flat l -> no_call_blocks l ->
  (forall f fx, paired f fx l xs -> function_good s' f fx) /\
  (no_externals l -> s_cur s' = s_cur s /\ s_main s' = s_main s /\
    forall m y, in_main m y l xs -> n_type m = N_RETURN -> agrees s' (s_cur s) (s_main s) y).
Proof.
  intros w src l F. induction F as [|n l Fn Fl IH]; intros before s s' xs H FL NC.
  - cbn in H. inversion H; subst. split; [intros f fx P; inversion P|]. intros _. split; [reflexivity|]. split; [reflexivity|]. intros m y P. inversion P.
  - apply walk_cons in H as (s1 & x & r & H1 & H2 & ->). pose proof (walk_tame _ _ _ _ _ _ _ H2) as T2.
    destruct (Fn _ _ _ _ _ H1 (single_flat _ _ FL) (single_calls _ _ NC)) as (P1 & Q1).
    apply flat_cons in FL as (_ & _ & FL). apply calls_cons in NC as (_ & _ & NC).
    destruct (IH _ _ _ _ H2 FL NC) as (P2 & Q2). split.
    + intros f fx P. inversion P as [? ?|? ? ? ? P'|? ? ? ? P']; subst.
      * apply good_tame with s1; [exact T2|]. apply P1. constructor.
      * now apply P2.
      * apply good_tame with s1; [exact T2|]. apply P1. now apply pa_below.
    + intro NX. destruct (Q1 (single_externals _ _ NX)) as (CC & CM & A1). apply externals_cons in NX as (_ & _ & NX).
      destruct (Q2 NX) as (CC2 & CM2 & A2). split; [congruence|]. split; [congruence|].
      intros m y P T. inversion P as [? ?|? ? ? ? P'|? ? ? ? TF P']; subst.
      * apply agrees_tame with s1; [exact T2|]. apply A1 with n; [constructor|exact T].
      * rewrite <- CC, <- CM. now apply A2 with m.
      * apply agrees_tame with s1; [exact T2|]. apply A1 with m; [now apply im_below|exact T].
Qed.

Lemma flat_nodes : forall w src n, flat_node w src n.
Proof.
  intros w src n. induction n as [n IH] using node_ind'. intros before after s s' x H FL NC.
  pose proof H as H0. apply node_ran in H as (SC & p & c & -> & R). pose proof (ran_moves _ _ _ _ _ _ _ _ _ _ R) as M.
  apply flat_cons in FL as (FT & FC & _). apply calls_cons in NC as (NT & NCC & _).
  destruct M as [T C D XP|s1 s2 T XP TR H1 D1 D2|name ret num ext exp ps k ks s1 s2 y f T P E H1 T1 F1 Y1 EY KY T2 Q].
  - assert (EC : n_child n = []). { destruct SC as [SC|SC]; [exact SC|]. auto. } split.
    + intros f fx P. inversion P as [? ?|? ? ? ? P'|? ? ? ? P']; subst.
      * intros name ret num ext exp ps k ks _ X. exfalso. now apply (XP k ks).
      * inversion P'.
      * rewrite EC in P'. inversion P'.
    + intros _. destruct D as [TM F0].
      assert (CM : s_cur s' = s_cur s /\ s_main s' = s_main s) by (unfold fstate in F0; split; congruence). destruct CM as [CC CM].
      split; [easy|]. split; [easy|]. intros m y P TY. inversion P as [? ?|? ? ? ? P'|? ? ? ? TF P']; subst.
      * now apply return_agrees in H0.
      * inversion P'.
      * rewrite EC in P'. inversion P'.
  - pose proof (walk_tame _ _ _ _ _ _ _ H1) as TM. destruct (flat_walk _ _ _ IH _ _ _ _ H1 FC NCC) as (G1 & P1).
    destruct (D2 TM) as [T2 F2]. destruct D1 as [T1 F0].
    assert (CM : s_cur s1 = s_cur s /\ s_main s1 = s_main s) by (unfold fstate in F0; split; congruence). destruct CM as [CC CM].
    assert (CMB : s_cur s' = s_cur s2 /\ s_main s' = s_main s2) by (unfold fstate in F2; split; congruence). destruct CMB as [CC2 CM2].
    split.
    + intros f fx P. inversion P as [? ?|? ? ? ? P'|? ? ? ? P']; subst.
      * intros name ret num ext exp ps k ks _ X. exfalso. now apply (XP k ks).
      * inversion P'.
      * apply good_tame with s2; [exact T2|]. now apply G1.
    + intro NX. apply externals_cons in NX as (_ & NX & _). destruct (P1 NX) as (CC1 & CM1 & A1).
      split; [congruence|]. split; [congruence|]. intros m y P TY. inversion P as [? ?|? ? ? ? P'|? ? ? ? TF P']; subst.
      * contradiction.
      * inversion P'.
      * apply agrees_tame with s2; [exact T2|]. rewrite <- CC, <- CM. now apply A1 with m.
  - subst p. pose proof (walk_tame _ _ _ _ _ _ _ H1) as TM.
    destruct (plain_walk w src (n_child n)) with (before := @nil ntype) (s := s1) (s' := s2) (xs := c) as (F2 & X2 & P2); auto.
    { apply Forall_forall. intros q _. apply plain_nodes. }
    assert (C1 : s_cur s1 = k /\ s_main s1 = s_main s /\ s_last s1 = Some (s_cur s)) by (unfold fstate in F1; repeat split; congruence). destruct C1 as (C1 & M1 & L1).
    assert (C2 : s_cur s2 = k /\ s_main s2 = s_main s /\ s_last s2 = Some (s_cur s)) by (unfold fstate in F2; repeat split; congruence). destruct C2 as (C2 & M2 & L2).
    destruct Y1 as (y1 & f1 & E1 & K1 & X1).
    assert (T3 : tame s1 s') by (now apply tame_trans with s2). destruct (tame_func _ _ k y1 f1 T3 E1 K1) as (y3 & f3 & E3 & K3 & R3 & X3).
    rewrite C2 in EY. assert (y3 = y) by congruence. subst y3. assert (f3 = f) by congruence. subst f3.
    split.
    + intros g fx PG. apply paired_single in PG as [(-> & ->)|P'].
      * intros name' ret' num' ext' exp' ps' k' ks' X Y. cbn [tn_pay tn_child] in *. inversion Y; subst k' ks'.
        assert (ext' = ext) by congruence. subst ext'. exists y, f. split; [exact EY|]. split; [exact KY|]. split.
        -- intros m z PM TMM. destruct (P2 m z PM TMM) as ((y2 & f2 & E2 & K2 & RF) & _). rewrite C1 in E2.
           destruct (tame_func _ _ k y2 f2 T2 E2 K2) as (y5 & f5 & E5 & K5 & R5 & _). assert (y5 = y) by congruence. subst y5.
           assert (f5 = f) by congruence. subst f5. now rewrite R5.
        -- split; [|congruence]. intro XE. destruct Q as [(QX & _)|(_ & QR & _)]; [congruence|exact QR].
      * cbn [tn_child] in P'. intros name' ret' num' ext' exp' ps' k' ks' X Y. exfalso. now apply (X2 _ _ P' k' ks').
    + intro NX. apply externals_cons in NX as (NX & _ & _). specialize (NX _ _ _ _ _ _ P).
      destruct Q as [(QX & _)|(_ & _ & l & QL & QF)]; [congruence|].
      assert (C3 : s_cur s' = l /\ s_main s' = s_main s2) by (unfold fstate in QF; split; congruence). destruct C3 as (C3 & M3).
      split; [congruence|]. split; [congruence|]. intros m z PO TY. inversion PO as [? ?|? ? ? ? P'|? ? ? ? TF P']; subst.
      * congruence.
      * inversion P'.
      * contradiction.
Qed.

(** * The statements *)

Lemma terminal_split : forall l n, terminal_node l = Some n -> exists a b, l = a ++ n :: b /\ (n_type n = N_RETURN \/ n_type n = N_UNREACHABLE).
Proof.
  induction l as [|m l IH]; intros n H; cbn [terminal_node] in H; [discriminate|].
  destruct (n_type m) eqn:T; try (destruct (IH n H) as (a & b & -> & E); exists (m :: a), b; auto; fail); inversion H; subst; exists [], l; rewrite T; auto.
Qed.

Lemma returned_value_ends : forall l, returned_value l = true -> (forall a n b, l = a ++ n :: b -> n_type n = N_RETURN \/ n_type n = N_UNREACHABLE -> Forall (fun m => idle (n_type m)) b) ->
  ends_with_value l.
Proof.
  intros l H F. unfold returned_value in H. destruct (terminal_node l) as [n|] eqn:E; [|discriminate].
  apply terminal_split in E as (a & b & -> & _). destruct (n_type n) eqn:T; try discriminate. destruct (n_pay n) eqn:P; try discriminate.
  exists a, n, e, b. repeat split; auto. apply (F a n b); auto.
Qed.

Lemma no_value_bare : forall l, returned_value l = false -> (forall a n b, l = a ++ n :: b -> n_type n = N_RETURN \/ n_type n = N_UNREACHABLE -> Forall (fun m => idle (n_type m)) b) ->
  forall a n b, l = a ++ n :: b -> n_type n = N_RETURN -> forall v, n_pay n <> PExpr v.
Proof.
  intros l H F a n b E T v P.
  assert (NR : Forall (fun m => ~ (n_type m = N_RETURN \/ n_type m = N_UNREACHABLE)) a).
  { apply Forall_forall. intros m I TM. apply in_split in I as (a1 & a2 & ->). rewrite <- app_assoc in E. cbn in E.
    specialize (F _ _ _ E TM). apply Forall_app in F as (_ & F). inversion F as [|? ? X Y]; subst. rewrite T in X. unfold idle in X. intuition discriminate. }
  subst l. clear F. revert H. induction a as [|m a IH]; intro H.
  - cbn in H. unfold returned_value in H. cbn [terminal_node] in H. rewrite T in H. rewrite T, P in H. discriminate.
  - inversion NR as [|? ? R1 R2]; subst. apply IH; auto. unfold returned_value in *. cbn [terminal_node app] in H.
    destruct (n_type m) eqn:TM; auto; exfalso; apply R1; auto.
Qed.

Lemma block_dead : forall w src ts tree s l, accepted w src ts tree s l -> no_call_blocks tree -> forall f, in_tree f tree ->
  forall a n b, n_child f = a ++ n :: b -> n_type n = N_RETURN \/ n_type n = N_UNREACHABLE -> Forall (fun m => idle (n_type m)) b.
Proof.
  intros w src ts tree s l A NC f I a n b E T.
  destruct (block_split _ _ _ _ _ _ _ _ _ _ A NC (bo_below _ _ I) E) as (s1 & s2 & x & H).
  apply node_ran in H as (_ & p & c & -> & R).
  destruct R as [e s' p T0 P H|T0 F|T0 D F|name ret num ext exp ps s' p c T0 P H|name e i c x s' p T0 P H|e s' p T0 P H
    |g a0 m s' x T0 P H|e s3 x s' c T0 P NE H1 H|s' c T0 B NE H|e s3 x s4 c T0 P NE H1 H|s' k c T0 H|T0]; try (destruct T as [T|T]; rewrite T in T0; discriminate).
  - now apply return_calm in H as (_ & H).
  - exact F.
  - exact F.
  - destruct T as [T|T]; rewrite T in T0; destruct T0 as [T0|(T0 & _)]; discriminate.
  - destruct T as [T|T]; rewrite T in T0; cbn in T0; intuition discriminate.
Qed.

Lemma paired_in : forall n x l xs, paired n x l xs -> in_tree n l.
Proof.
  intros n x l xs P. induction P as [l xs|m y l xs P IH|m y l xs P IH].
  - apply it_here. now left.
  - destruct IH as [l I|q l I J]; [apply it_here; now right|apply it_below with q; [now right|exact J]].
  - apply it_below with m; [now left|exact IH].
Qed.

Lemma returns_l : forall w src ts tree s l, accepted w src ts tree s l -> no_call_blocks tree -> few_arguments tree -> flat tree ->
  exists D e, block_ok D w src [] tree l e /\
  forall f fx name ret num ext exp ps k ks, paired f fx tree l -> n_pay f = PProto name ret num ext exp ps -> tn_pay fx = XProto k ks ->
  exists params r, D k = Some (DFun params r) /\
    (forall n x, paired n x (n_child f) (tn_child fx) -> n_type n = N_RETURN -> return_fits r x) /\
    (ext = false -> r <> TVoid -> ends_with_value (n_child f)) /\
    (ext = false -> r = TVoid -> forall a n b v, n_child f = a ++ n :: b -> n_type n = N_RETURN -> n_pay n <> PExpr v).
Proof.
  intros w src ts tree s l A NC FA FL. pose proof (accepted_fine _ _ _ _ _ _ A NC FA) as F. pose proof A as A0. apply accepted_walk in A as (s1 & A).
  destruct (walk_fine w src tree) with (before := @nil ntype) (s := setup_semantic_state) (s' := s1) (xs := l) as (I & R & G & B); auto.
  - apply Forall_forall. intros n _. apply node_ok.
  - apply start_inv.
  - apply start_ready.
  - destruct (flat_walk w src tree) with (before := @nil ntype) (s := setup_semantic_state) (s' := s1) (xs := l) as (P1 & _); auto.
    { apply Forall_forall. intros n _. apply flat_nodes. }
    exists (sig s1), (cenv s1). split; [apply B; intros k d E; exact E|].
    intros f fx name ret num ext exp ps k ks P NP TP. destruct (P1 f fx P name ret num ext exp ps k ks NP TP) as (y & g & EY & KY & RF & RV & _).
    exists (f_params g), (f_ret g). pose proof (paired_in _ _ _ _ P) as IN. split; [|split; [exact RF|split]].
    + unfold sig. rewrite EY, KY. rewrite (R k y g EY KY), N.eqb_refl. reflexivity.
    + intros XE NV. apply returned_value_ends.
      * destruct (returned_value (n_child f)) eqn:RE; [reflexivity|]. exfalso. apply NV. now apply RV.
      * now apply (block_dead _ _ _ _ _ _ A0 NC).
    + intros XE V a n b v E T. apply (no_value_bare (n_child f)) with a b; auto; [now apply RV|].
      now apply (block_dead _ _ _ _ _ _ A0 NC).
Qed.

Lemma in_main_l : forall w src ts tree s l, accepted w src ts tree s l -> no_call_blocks tree -> flat tree -> no_externals tree ->
  forall n x, in_main n x tree l -> n_type n = N_RETURN -> exists y, tn_pay x = XExpr y /\ x_ty y = TInt.
Proof.
  intros w src ts tree s l A NC FL NX n x P T. apply accepted_walk in A as (s1 & A). pose proof (walk_tame _ _ _ _ _ _ _ A) as TM.
  destruct (flat_walk w src tree) with (before := @nil ntype) (s := setup_semantic_state) (s' := s1) (xs := l) as (_ & P1); auto.
  { apply Forall_forall. intros q _. apply flat_nodes. }
  destruct (P1 NX) as (_ & _ & P2). destruct (P2 n x P T) as ((y & f & EY & KY & RF) & M). cbn [s_cur s_main setup_semantic_state] in *.
  destruct (tame_func _ _ 0 main_symbol _ TM eq_refl eq_refl) as (y' & f' & E' & K' & R' & _). cbn [f_ret] in R'.
  assert (y' = y) by congruence. subst y'. assert (f' = f) by congruence. subst f'.
  destruct RF as [(v & EV & _)|(_ & RV)]; [|congruence]. exists v. split; [exact EV|]. now apply M.
Qed.
