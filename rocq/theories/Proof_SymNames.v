(** The names of symbols are the names in the text. *)
From Coq Require Import List Arith NArith ZArith Bool Lia Ascii String.
From Verif Require Import Base Model_Token Model_Utf8 Model_Classify Model_Literal Model_Parse Model_Sem.
From Verif Require Import Spec_Utf8 Spec_Parse Spec_Sem Spec_Sem2 Proof_Parse2 Proof_Parse5 Proof_Sem Proof_Sem2 Proof_Sem3 Proof_Sem4 Proof_Sem7.
Import ListNotations.
Open Scope list_scope.
Open Scope nat_scope.

(** The symbol k has the name that the token t spells. *)
Definition calls_it (src : text) (s : sst) (t : token) (k : nat) : Prop :=
  exists y, nth_error (s_syms s) k = Some y /\ spells src t (y_name y).
(** The variable k is defined by the expression y. *)
Definition valued (s : sst) (k : nat) (y : texpr) (const exported : bool) : Prop :=
  exists sy v, nth_error (s_syms s) k = Some sy /\ y_kind sy = KVar v /\ v_cexpr v = Some (x_cexpr y) /\ v_type v = x_ty y /\
    v_const v = const /\ v_exported v = exported.
(** The function k has these modifiers. *)
Definition flagged (s : sst) (k : nat) (ext exp : bool) : Prop :=
  exists y f, nth_error (s_syms s) k = Some y /\ y_kind y = KFunc f /\ f_external f = ext /\ f_export f = exp.
Definition named (src : text) (s : sst) (n : node) (x : tnode) : Prop :=
  match tn_pay x with
  | XDef k y => exists t r e i c z, n_pay n = PVarDef (t :: r) e i c z /\ calls_it src s t k /\ valued s k y c z
  | XProto k ks => exists t ret num ext exp ps, n_pay n = PProto t ret num ext exp ps /\ (calls_it src s t k /\ flagged s k ext exp) /\
      exists m, Forall2 (fun p k => calls_it src s (pm_name p) k) (firstn m ps) ks
  | XSpace k => exists q t r, n_token n = q :: t :: r /\ calls_it src s t k
  | _ => True
  end.

Lemma calls_hist : forall src s s' p r a c ns t k, hist s s' p r a c ns -> calls_it src s t k -> calls_it src s' t k.
Proof.
  intros src s s' p r a c ns t k H (y & E & S). destruct (hs_keep _ _ _ _ _ _ _ H _ _ E) as (y' & E' & (L & _) & _).
  exists y'. split; [exact E'|]. now rewrite L.
Qed.
Lemma valued_hist : forall s s' p r a c ns k y b d, hist s s' p r a c ns -> valued s k y b d -> valued s' k y b d.
Proof.
  intros s s' p r a c ns k y b d H (z & v & E & K & C & T & V1 & V2). destruct (hs_keep _ _ _ _ _ _ _ H _ _ E) as (y' & E' & _ & K').
  rewrite K in K'. destruct (y_kind y') as [v'| | |] eqn:KY; try contradiction. destruct K' as (W1 & W2 & T' & C').
  exists y', v'. split; [exact E'|]. split; [exact KY|]. split; [now apply C'|repeat split; congruence].
Qed.
Lemma flagged_hist : forall s s' p r a c ns k b d, hist s s' p r a c ns -> flagged s k b d -> flagged s' k b d.
Proof.
  intros s s' p r a c ns k b d H (y & f & E & K & F1 & F2). destruct (hs_keep _ _ _ _ _ _ _ H _ _ E) as (y' & E' & _ & K').
  rewrite K in K'. destruct (y_kind y') as [|f'| |] eqn:KY; try contradiction. destruct K' as (W1 & W2).
  exists y', f'. split; [exact E'|]. split; [exact KY|split; congruence].
Qed.
Lemma named_hist : forall src s s' p r a c ns n x, hist s s' p r a c ns -> named src s n x -> named src s' n x.
Proof.
  intros src s s' p r a c ns n x H S. unfold named in *. destruct (tn_pay x); auto.
  - destruct S as (t & q & e0 & i & b & z & P & C & V). exists t, q, e0, i, b, z. split; [exact P|]. split; [exact (calls_hist _ _ _ _ _ _ _ _ _ _ H C)|exact (valued_hist _ _ _ _ _ _ _ _ _ _ _ H V)].
  - destruct S as (t & ret & num & ext & exp & ps & P & C & m & F). exists t, ret, num, ext, exp, ps. split; [exact P|].
    destruct C as (C & G). split; [split; [exact (calls_hist _ _ _ _ _ _ _ _ _ _ H C)|exact (flagged_hist _ _ _ _ _ _ _ _ _ _ H G)]|].
    exists m. clear - F H. induction F; constructor; auto. eapply calls_hist; eauto.
  - destruct S as (q & t & z & P & C). exists q, t, z. split; [exact P|]. exact (calls_hist _ _ _ _ _ _ _ _ _ _ H C).
Qed.

Lemma added_calls : forall src s s' k n loc kd t, added s s' k (mksym n loc kd) -> spells src t n -> calls_it src s' t k.
Proof.
  intros src s s' k n loc kd t A S. exists (mksym n loc kd). split; [|exact S].
  rewrite (ad_syms _ _ _ _ A), (ad_k _ _ _ _ A). rewrite nth_error_app2, Nat.sub_diag by lia. reflexivity.
Qed.

Lemma params_named : forall src ext ps s s' l, params_loop src ext s ps = Pass s' l ->
  Forall2 (fun p k => calls_it src s' (pm_name p) k) ps (map snd l).
Proof.
  intros src ext ps. induction ps as [|p ps IH]; intros s s' l H; cbn [params_loop] in H.
  - inversion H; subst. constructor.
  - apply rbind_pass in H as (t & HT & H). destruct t as [t|]; [|unwind H]. apply rbind_pass in H as ((n, v) & HV & H).
    apply variable_spells in HV as (SP & EV). cbv zeta in H.
    apply sbind_pass in H as (s1 & k & H1 & H). apply sbind_pass in H as (s2 & l2 & H2 & H). inversion H; subst s2 l. clear H.
    cbn [map snd]. constructor; [|exact (IH _ _ _ H2)]. apply add_param_added in H1. apply params_loop_hist in H2.
    apply (calls_hist _ _ _ _ _ _ _ _ _ _ H2). exact (added_calls _ _ _ _ _ _ _ _ H1 SP).
Qed.
Lemma func_params_named : forall src s ext num ps s' l, validate_func_params src s ext num ps = Pass s' l ->
  exists m, Forall2 (fun p k => calls_it src s' (pm_name p) k) (firstn m ps) (map snd l).
Proof.
  intros src s ext num ps s' l H. unfold validate_func_params in H. destruct (num =? 0)%N; [inversion H; subst; exists 0; constructor|].
  apply rbind_pass in H as (s1 & H1 & H). apply sbind_pass in H as (s2 & l2 & H2 & H).
  apply rbind_pass in H as (s3 & H3 & H). inversion H; subst. apply params_named in H2. apply restore_hist in H3.
  exists (N.to_nat num). revert H2. generalize (firstn (N.to_nat num) ps) (map snd l). intros a b F. induction F; constructor; auto. eapply calls_hist; eauto.
Qed.
Lemma func_head_named : forall src s name ret num ext exp ps s' k l, func_head src s name ret num ext exp ps = Pass s' (k, l) ->
  (calls_it src s' name k /\ flagged s' k ext exp) /\ exists m, Forall2 (fun p k => calls_it src s' (pm_name p) k) (firstn m ps) l.
Proof.
  intros src s name ret num ext exp ps s' k l H. pose proof H as H0. unfold func_head in H. apply rbind_pass in H as (top & _ & H).
  destruct ((exp || ext) && negb top); [discriminate|]. apply sbind_pass in H as (s1 & t & H1 & H).
  apply return_type_same in H1. subst s1. apply rbind_pass in H as (n & HN & H). cbv zeta in H.
  apply sbind_pass in H as (s2 & k2 & H2 & H). apply sbind_pass in H as (s3 & l3 & H3 & H).
  pose proof (func_params_hist _ _ _ _ _ _ _ H3) as D3. apply func_params_named in H3 as (m & F).
  apply add_or_stop_added in H2. apply mbs_spells in HN. pose proof (added_calls _ _ _ _ _ _ _ _ H2 HN) as C2.
  assert (C3 : calls_it src s3 name k2).
  { apply (calls_hist src (set_funcs s2 k2 (Some (s_cur s))) s3 _ _ _ _ _ name k2 D3). exact C2. }
  assert (K : forall t j, calls_it src s3 t j -> calls_it src s' t j).
  { intros t0 j (y & E & S). assert (s' = set_kind s3 k2 (KFunc (put_params (map fst l3) (mkfunc ext exp t num [] false)))) as -> by (inversion H; reflexivity).
    unfold calls_it. cbn [set_kind s_syms set_syms]. rewrite upd_nth, E. destruct (k2 =? j); cbn [option_map]; eauto. }
  assert (k = k2 /\ l = map snd l3) as (-> & ->) by (inversion H; auto). split; [split; [now apply K|]|exists m; clear - F K; induction F; constructor; auto].
  destruct C3 as (y & E & _). inversion H; subst s'. eexists _, _. split; [cbn [set_kind s_syms set_syms]; rewrite upd_nth, E, Nat.eqb_refl; reflexivity|].
  split; [reflexivity|split; reflexivity].
Qed.

Lemma def_named : forall w src s tok te name e i c z s' k y, validate_stmt_var_def w src s tok te name e i c z = Pass s' (XDef k y) ->
  exists t r, name = t :: r /\ calls_it src s' t k.
Proof.
  intros w src s tok te name e i c z s' k y H. unfold validate_stmt_var_def in H. destruct te as [|t0 rest]; [discriminate|].
  apply rbind_pass in H as (ty & HTY & H). destruct ty as [ty|].
  - unfold validate_stmt_type_alias in H. destruct c; cbn [negb] in H; [|unwind H]. cbv zeta in H.
    destruct (negb _); [unwind H|]. destruct tok as [|t [|q r]]; try discriminate.
    apply rbind_pass in H as (tt & HT & H). apply rbind_pass in H as (nm & HN & H).
    apply sbind_pass in H as (s1 & k1 & HA & H). discriminate H.
  - apply sbind_pass in H as (s1 & y1 & HE & H). apply sbind_pass in H as (s2 & (k1, v) & HV & H). cbv zeta in H.
    apply sbind_pass in H as (s3 & u3 & H3 & H). unfold node_to_var in HV. apply sbind_pass in HV as (s4 & u4 & HVV & HV).
    pose proof (void_same _ _ _ _ _ HVV) as E4. subst s4. apply sbind_pass in HV as (s5 & t & HD & HV).
    destruct name as [|nt name]; [discriminate|]. apply rbind_pass in HV as ((nm, v5) & HMV & HV).
    apply variable_spells in HMV as (SP & EV). apply sbind_pass in HV as (s6 & k6 & HA & HV). assert (VV : v5 = v) by (now inversion HV).
    rewrite VV in *. clear v5 VV. inversion HV; subst s6 k6. clear HV. apply add_or_stop_added in HA.
    pose proof (added_calls _ _ _ _ _ _ _ _ HA SP) as (y2 & E2 & S2). exists nt, name. split; [reflexivity|].
    unfold is_expr_compatible_with_var in H3. destruct (ty_eqb _ _); [|discriminate]. inversion H3; subst s3. clear H3.
    assert (C3 : calls_it src (set_kind s2 k1 (KVar (mark_defined (x_cexpr y1) v))) nt k1).
    { eexists. split; [apply nth_set_kind; exact E2|exact S2]. }
    destruct (is_const_lit y1 && negb i).
    + apply sbind_pass in H as (s7 & u7 & H7 & H). inversion H; subst. apply warn_calm in H7. destruct C3 as (y3 & E3 & S3).
      destruct (cm_syms _ _ H7 _ _ E3) as (y4 & E4 & N4 & _). exists y4. split; [exact E4|]. now rewrite N4.
    + inversion H; subst. exact C3.
Qed.

Definition node_named (w : world) (src : text) (n : node) : Prop := forall before after s s' x,
  validate_ast_node w src before after n s = Pass s' x -> forall m y, paired m y [n] [x] -> named src s' m y.

Lemma walk_named : forall w src l, Forall (node_named w src) l -> forall before s s' xs,
  walk (validate_ast_node w src) before l s = Pass s' xs -> forall m y, paired m y l xs -> named src s' m y.
Proof.
  intros w src l F. induction F as [|n l Fn Fl IH]; intros before s s' xs H.
  - cbn in H. inversion H; subst. intros m y P. inversion P.
  - apply walk_cons in H as (s1 & x & r & H1 & H2 & ->). pose proof (Fn _ _ _ _ _ H1) as B1. pose proof (IH _ _ _ _ H2) as B2.
    assert (A2 : hists s1 s' r). { refine (proj1 (walk_hist w src l _ _ _ _ _ H2)). apply Forall_forall. intros q _. apply nodes_hist. }
    intros m y P. inversion P as [? ?|? ? ? ? P'|? ? ? ? P']; subst.
    + apply (named_hist _ _ _ _ _ _ _ _ _ _ A2). apply B1. constructor.
    + now apply B2.
    + apply (named_hist _ _ _ _ _ _ _ _ _ _ A2). apply B1. now apply pa_below.
Qed.

Lemma nodes_named : forall w src n, node_named w src n.
Proof.
  intros w src n. induction n as [n IH] using node_ind'. intros before after s s' x H.
  apply node_ran in H as (SC & p & c & -> & R). pose proof (walk_named w src _ IH) as W.
  assert (WH : forall before s s' xs, walk (validate_ast_node w src) before (n_child n) s = Pass s' xs -> hists s s' xs).
  { intros b t t' xs HW. refine (proj1 (walk_hist w src _ _ _ _ _ _ HW)). apply Forall_forall. intros q _. apply nodes_hist. }
  destruct R as [e s' p T P H|T F|T D F|name ret num ext exp ps s' p c T P H|name e i c x s' p T P H|e s' p T P H
    |f a m s' x T P H|e s1 x s' c T P NE H1 H|s' c T B NE H|e s1 x s2 c T P NE H1 H|s' k c T H|T].
  - assert (EC : n_child n = []). { destruct SC as [SC|SC]; [exact SC|]. unfold may_have_child in SC. rewrite T in SC. discriminate SC. }
    apply return_hist in H as [(-> & H)|(y & -> & H)];
      intros m z Q; inversion Q as [? ?|? ? ? ? Q'|? ? ? ? Q']; subst; [exact I|inversion Q'|rewrite EC in Q'; inversion Q'|exact I|inversion Q'|rewrite EC in Q'; inversion Q'].
  - intros m z Q. inversion Q as [? ?|? ? ? ? Q'|? ? ? ? Q']; subst; [exact I|inversion Q'|cbn in Q'; inversion Q'].
  - intros m z Q. inversion Q as [? ?|? ? ? ? Q'|? ? ? ? Q']; subst; [exact I|inversion Q'|cbn in Q'; inversion Q'].
  - unfold validate_stmt_func_decl in H. cbv zeta in H.
    apply sbind_pass in H as (s1 & (k, l) & H1 & H). apply sbind_pass in H as (s2 & c2 & H2 & H).
    apply sbind_pass in H as (s3 & u & H3 & H). inversion H; subst. clear H. apply func_head_named in H1 as (Y1 & m0 & Y2).
    apply setup_hist in H2 as (s4 & s5 & H4 & D1 & D2). pose proof (WH _ _ _ _ H4) as H4'. pose proof (W _ _ _ _ H4) as S4.
    assert (D3 : hist s2 (set_depth s3 (s_depth s)) [] [] [] [] []).
    { unfold func_end in H3. apply rbind_pass in H3 as ((y, f) & _ & H3). destruct (f_external f); [inversion H3; subst; now apply hist_refl|].
      destruct (_ && _); [discriminate|]. destruct (_ && _); [discriminate|]. destruct (s_last s2); [|discriminate]. inversion H3; subst. now apply hist_refl. }
    assert (H5 : hists s1 (set_depth s3 (s_depth s)) c). { apply hists_behind with s5; [|now apply hist_trans0 with s2]. now apply hist_trans0 with s4. }
    intros m z Q. inversion Q as [? ?|? ? ? ? Q'|? ? ? ? Q']; subst.
    + apply (named_hist _ _ _ _ _ _ _ _ _ _ H5). exists name, ret, num, ext, exp, ps. split; [exact P|]. eauto.
    + inversion Q'.
    + cbn in Q'. apply (named_hist src s5 _ [] [] [] [] []); [now apply hist_trans0 with s2|]. now apply S4.
  - assert (EC : n_child n = []). { destruct SC as [SC|SC]; [exact SC|]. unfold may_have_child in SC. rewrite T in SC. discriminate SC. }
    intros m q Q. inversion Q as [? ?|? ? ? ? Q'|? ? ? ? Q']; subst; [|inversion Q'|rewrite EC in Q'; inversion Q'].
    pose proof (var_def_hist _ _ _ _ _ _ _ _ _ _ _ _ H) as [(-> & _)|(k & y & -> & _ & sy & v & t0 & r0 & _ & E & _ & K & V1 & V2 & CE & TY)]; [exact I|].
    apply def_named in H as (t & r & -> & C). exists t, r, e, i, c, x. split; [exact P|]. split; [exact C|]. exists sy, v. repeat split; auto.
  - assert (EC : n_child n = []). { destruct SC as [SC|SC]; [exact SC|]. unfold may_have_child in SC. rewrite T in SC. discriminate SC. }
    apply var_assign_hist in H as (k & y & -> & H).
    intros m q Q. inversion Q as [? ?|? ? ? ? Q'|? ? ? ? Q']; subst; [exact I|inversion Q'|rewrite EC in Q'; inversion Q'].
  - intros q z Q. inversion Q as [? ?|? ? ? ? Q'|? ? ? ? Q']; subst; [exact I|inversion Q'|]. cbn [tn_child] in Q'. apply untouched_stated in Q'.
    unfold named. rewrite Q'. exact I.
  - apply setup_hist in H as (s4 & s5 & H4 & D1 & D2). pose proof (W _ _ _ _ H4) as S4.
    intros q z Q. inversion Q as [? ?|? ? ? ? Q'|? ? ? ? Q']; subst; [exact I|inversion Q'|]. apply (named_hist _ _ _ _ _ _ _ _ _ _ D2). now apply S4.
  - apply setup_hist in H as (s4 & s5 & H4 & D1 & D2). pose proof (W _ _ _ _ H4) as S4.
    intros q z Q. inversion Q as [? ?|? ? ? ? Q'|? ? ? ? Q']; subst; [exact I|inversion Q'|]. apply (named_hist _ _ _ _ _ _ _ _ _ _ D2). now apply S4.
  - apply setup_hist in H as (s4 & s5 & H4 & D1 & D2). pose proof (W _ _ _ _ H4) as S4.
    assert (D3 : hist s5 (set_depth s2 ((s_depth s2 + 2 ^ 32 - 1) mod 2 ^ 32)) [] [] [] [] []). { apply hist_trans0 with s2; [exact D2|now apply hist_refl]. }
    intros q z Q. inversion Q as [? ?|? ? ? ? Q'|? ? ? ? Q']; subst; [exact I|inversion Q'|]. apply (named_hist _ _ _ _ _ _ _ _ _ _ D3). now apply S4.
  - unfold validate_control_namespace in H. destruct (n_token n) as [|q [|t r]] eqn:TK; try discriminate.
    apply rbind_pass in H as (nm & HN & H). apply sbind_pass in H as (s1 & k1 & H1 & H).
    apply sbind_pass in H as (s2 & c2 & H2 & H). apply add_or_stop_added in H1.
    destruct (s_scope s2); [|discriminate]. apply rbind_pass in H as (here & _ & H). destruct (c_last here); [|discriminate].
    apply rbind_pass in H as (bef & _ & H). apply rbind_pass in H as (ins & HI & H). inversion H; subst.
    apply mbs_spells in HN. pose proof (added_calls _ _ _ _ _ _ _ _ H1 HN) as C1.
    assert (E1 : nth_error (s_syms s1) k = Some (mksym nm (t_loc t) (KSpace None))).
    { rewrite (ad_syms _ _ _ _ H1), (ad_k _ _ _ _ H1). rewrite nth_error_app2, Nat.sub_diag by lia. reflexivity. }
    apply setup_hist in H2 as (s4 & s5 & H4 & D1 & D2). pose proof (WH _ _ _ _ H4) as H4'. pose proof (W _ _ _ _ H4) as S4.
    assert (H6 : hists s1 s2 c). { apply hists_behind with s5; [|exact D2]. now apply hist_trans0 with s4. }
    destruct (hs_keep _ _ _ _ _ _ _ H6 k _ E1) as (y & EY & LY & KY). cbn in KY.
    assert (D3 : hist s2 (set_kind s2 k (KSpace ins)) [] [] [] [] []).
    { apply hist_kind with y; auto. }
    intros qq z Q. inversion Q as [? ?|? ? ? ? Q'|? ? ? ? Q']; subst; [|inversion Q'|].
    + apply (named_hist _ _ _ _ _ _ _ _ _ _ D3), (named_hist _ _ _ _ _ _ _ _ _ _ H6). exists q, t, r. auto.
    + apply (named_hist _ _ _ _ _ _ _ _ _ _ D3), (named_hist _ _ _ _ _ _ _ _ _ _ D2). now apply S4.
  - intros m z Q. inversion Q as [? ?|? ? ? ? Q'|? ? ? ? Q']; subst; [exact I|inversion Q'|cbn in Q'; inversion Q'].
Qed.

Theorem accepted_named : forall w src ts tree s l, accepted w src ts tree s l -> forall n x, paired n x tree l -> named src s n x.
Proof.
  intros w src ts tree s l (_ & H) n x P. unfold validate_ast_tree in H. apply sbind_pass in H as (s1 & l1 & H1 & H).
  apply rbind_pass in H as (s2 & H2 & H). apply sbind_pass in H as (s3 & v & H3 & H). inversion H; subst s3 l1. clear H.
  assert (E : s_syms s = s_syms s1).
  { assert (E2 : s_syms s2 = s_syms s1).
    { unfold reset_scope_head in H2. apply bind_ok in H2 as (h & _ & H2). inversion H2; subst. reflexivity. }
    rewrite <- E2. unfold check_unused_symbols in H3. destruct (w_quiet w); [inversion H3; subst; reflexivity|].
    apply rbind_pass in H3 as (st & _ & H3). destruct (snd st); [discriminate H3|]. inversion H3; subst. reflexivity. }
  assert (NM : named src s1 n x).
  { refine (walk_named w src tree _ _ _ _ _ H1 n x P). apply Forall_forall. intros q _. apply nodes_named. }
  unfold named, valued, flagged, calls_it in *. now rewrite E.
Qed.
