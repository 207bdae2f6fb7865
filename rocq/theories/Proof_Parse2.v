(** Proofs about the parser: statements and blocks. *)
From Coq Require Import List Arith NArith Bool Lia.
From Verif Require Import Base Model_Token Model_Parse Spec_Parse Proof_Parse.
Import ListNotations.
Open Scope list_scope.
Open Scope N_scope.

(** * The end of the program *)

Definition safe_end (ts : list token) : Prop := ts = [] \/ ends_cleanly ts.

Lemma app_last_eq : forall A (a b c : list A) x, a ++ b = c ++ [x] -> b <> [] ->
  exists b', b = b' ++ [x] /\ c = a ++ b'.
Proof.
  intros A a b c x H HN. destruct (exists_last HN) as (b' & y & E). subst b.
  rewrite app_assoc in H. apply app_inj_tail in H as (H1 & H2). subst. eauto.
Qed.

Lemma safe_end_app : forall a b, safe_end (a ++ b) -> safe_end b.
Proof.
  intros a b H. destruct b as [|t b]; [now left|]. right.
  destruct H as [H|(c & nl & E & Y & D)]; [now destruct a|].
  apply app_last_eq in E as (b' & E & EC); [|discriminate].
  exists b', nl. split; [easy|]. split; [easy|]. intros x d X. apply (D (a ++ x) d).
  now rewrite EC, X, app_assoc.
Qed.

Lemma safe_end_last : forall a t, safe_end (a ++ [t]) -> t_type t = T_NEWLINE.
Proof.
  intros a t [H|(c & nl & E & Y & _)]; [now destruct a|].
  apply app_inj_tail in E as (_ & E). now subst.
Qed.

Lemma adv_safe : forall s s1 used, adv s s1 used -> safe_end (p_tok s) -> p_tok s <> [] ->
  p_tok s1 <> [].
Proof.
  intros s s1 used A H HN E. rewrite (a_tok _ _ _ A), E, app_nil_r in *.
  destruct (exists_last HN) as (b & y & EB). subst used. apply safe_end_last in H.
  pose proof (a_types _ _ _ A) as F. apply Forall_app in F as (_ & F). inversion F as [|? ? X _].
  rewrite H in X. discriminate.
Qed.

Lemma quiet_end_app : forall a b, quiet_end b -> quiet_end (a ++ b).
Proof. intros a b (c & t & E & H). exists (a ++ c), t. subst b. now rewrite app_assoc. Qed.

(** * Trees *)

Definition tall (P : node -> Prop) (l : list node) : Prop := forall n, in_tree n l -> P n.

Lemma tall_iff : forall P l, tall P l <-> Forall (fun m => P m /\ tall P (n_child m)) l.
Proof.
  intros P l. split.
  - intro H. apply Forall_forall. intros m I. split.
    + apply H. now left.
    + intros n X. apply H. now apply it_below with m.
  - intros H n I. rewrite Forall_forall in H. destruct I as [l' I|m l' I X].
    + now apply H.
    + now apply (H m I).
Qed.

Lemma tall_nil : forall P, tall P [].
Proof. intro P. apply tall_iff. constructor. Qed.

Lemma tall_cons : forall (P : node -> Prop) n l, P n -> tall P (n_child n) -> tall P l -> tall P (n :: l).
Proof. intros P n l H1 H2 H3. apply tall_iff. rewrite tall_iff in H3. now constructor. Qed.

Lemma tall_inv : forall (P : node -> Prop) n l, tall P (n :: l) -> P n /\ tall P (n_child n) /\ tall P l.
Proof.
  intros P n l H. apply tall_iff in H. inversion H as [|? ? (H1 & H2) H3]; subst.
  split; [easy|]. split; [easy|]. now apply tall_iff.
Qed.

Lemma tall_rev : forall P l, tall P l -> tall P (rev l).
Proof. intros P l H. rewrite tall_iff in *. now apply Forall_rev. Qed.

Definition fine (ts0 : list token) (n : node) : Prop :=
  (exists a, ts0 = a ++ n_token n) /\ written n /\
  (unary_has_operand ts0 -> forall e, node_expr n = Some e -> complete e) /\ (n_type n <> N_UNKNOWN -> n_token n <> []).

Definition own (n : node) : list sym :=
  own_syms (n_type n) (n_token n) (n_token_end n) (n_pay n).

Lemma node_syms_own : forall n, node_syms n = own n ++ flat_map node_syms (n_child n).
Proof. now intros []. Qed.

(** * Outcomes of the statement parsers *)

Definition located' (ts : list token) (m : message) : Prop :=
  m = mkmsg P_EOF_NO_BRACKET None \/ m = mkmsg (P_INVALID_EXPR None) None \/ located ts m.

Lemma located'_app : forall a b m, located' b m -> located' (a ++ b) m.
Proof. intros a b m [H|[H|H]]; [now left|now (right; left)|]. do 2 right. now apply located_app. Qed.

Lemma located_located' : forall ts l, Forall (located ts) l -> Forall (located' ts) l.
Proof. intros ts l. apply Forall_impl. intros m H. now do 2 right. Qed.

Definition ptok (c : nctx) := p_tok (n_st c).
Definition pmsg (c : nctx) := p_msgs (n_st c).

(** An error was reported. *)
Definition reported (c c' : nctx) : Prop := exists used new, ptok c = used ++ ptok c' /\
  pmsg c' = new ++ pmsg c /\ new <> [] /\ Forall (located' (ptok c)) new.

Definition failed (c c' : nctx) : Prop := exists used new, ptok c = used ++ ptok c' /\
  pmsg c' = new ++ pmsg c /\ p_err (n_st c') = true /\ (new <> [] \/ quiet_end (ptok c)) /\
  Forall (located' (ptok c)) new.

(** The node n was added for the tokens `used`. *)
Definition pushed (c c' : nctx) : Prop := exists used n, used <> [] /\ ptok c = used ++ ptok c' /\
  p_err (n_st c') = false /\ pmsg c' = pmsg c /\ n_done c' = n :: n_done c /\ n_pend c' = [] /\
  n_child n = n_pend c /\ own n = syms used /\
  (exists a, ptok c = a ++ n_token n) /\ written n /\ n_token n <> [] /\
  (unary_has_operand (ptok c) -> forall e, node_expr n = Some e -> complete e).

Lemma expr_run : forall s, p_err s = false -> forall f, (length (p_tok s) < f)%nat ->
  wp True (parse_expression f s) (fun s' e => exists used, adv s s' used /\
    match e with
    | Some e => used <> [] /\ p_err s' = false /\ p_msgs s' = p_msgs s /\ yield e = syms used /\
        (unary_has_operand (p_tok s) -> complete e)
    | None => p_err s' = false -> used = [] /\ p_msgs s' = p_msgs s
    end).
Proof.
  intros s E f HL. eapply wp_mono; [apply (expression_spec f s HL)|]. cbn beta.
  intros s' [e|] ((used & A & H) & HE); exists used; (split; [exact A|]).
  - specialize (HE ltac:(discriminate)). destruct H as (H1 & H2). destruct (H2 HE) as (H3 & H4).
    repeat split; auto. destruct (a_msgs _ _ _ A) as (new & M & F & _). now rewrite M, (F HE).
  - intro Z. split; [auto|]. destruct (a_msgs _ _ _ A) as (new & M & F & _). now rewrite M, (F Z).
Qed.

Lemma adv_new : forall s s' used, adv s s' used -> p_err s = false -> p_err s' = true ->
  exists new, p_msgs s' = new ++ p_msgs s /\ new <> [] /\ Forall (located' (p_tok s)) new.
Proof.
  intros s s' used [_ _ _ (new & M & _ & G & L)] E E'. exists new. split; [easy|].
  split; [destruct (G E'); congruence|]. now apply located_located'.
Qed.

Lemma potential_type_spec : forall ts tmp, is_potential_type ts = Some tmp ->
  exists ty e after, ts = ty ++ e :: after /\ tmp = e :: after /\ bare_type (ty ++ [e]).
Proof.
  induction ts as [|t r IH]; intros tmp H; [discriminate|]. cbn [is_potential_type] in H.
  destruct (is_identifier_like t) eqn:Y.
  - apply ident_like_true in Y. inversion H; subst. exists [], t, r. repeat split. now constructor.
  - destruct (ttype_eqb (t_type t) T_OPER_REF) eqn:Y2; [|discriminate]. apply ttype_eqb_eq in Y2.
    destruct (IH _ H) as (ty & e & after & E1 & E2 & B). exists (t :: ty), e, after. subst.
    repeat split. cbn. now constructor.
Qed.

Lemma explicit_type_spec : forall ts after, is_explicit_type ts = Some after ->
  exists x ty, ts = x :: ty ++ after /\ t_type x = T_NEW_IDENTIFIER /\ bare_type ty.
Proof.
  intros [|x [|y r]] after H; try discriminate. unfold is_explicit_type in H.
  destruct (ttype_eqb (t_type x) T_NEW_IDENTIFIER) eqn:Y; [|discriminate]. apply ttype_eqb_eq in Y.
  destruct (is_potential_type (y :: r)) as [[|e aft]|] eqn:E; try discriminate. inversion H; subst aft.
  apply potential_type_spec in E as (ty & e' & aft & E1 & E2 & B). inversion E2; subst e' aft.
  exists x, (ty ++ [e]). rewrite <- app_assoc. cbn. now rewrite E1.
Qed.

Lemma through_app : forall a x b, through (a ++ x :: b) (x :: b) = a ++ [x].
Proof.
  intros a x b. unfold through. rewrite app_length.
  replace (S (length a + length (x :: b) - length (x :: b)))%nat with (length a + 1)%nat by lia.
  rewrite firstn_app_2. reflexivity.
Qed.

Lemma token_cmp2_true : forall ts a b, token_cmp2 ts a b = Ok true ->
  exists x y r, ts = x :: y :: r /\ t_type x = a /\ t_type y = b.
Proof.
  intros [|x ts] a b H; [discriminate|]. unfold token_cmp2 in H.
  assert (H1 : negb (ttype_eqb (t_type x) T_UNKNOWN) && ttype_eqb (t_type x) a && tok_is ts b = true)
    by congruence.
  apply andb_true_iff in H1 as (H1 & H3). apply andb_true_iff in H1 as (_ & H2).
  apply ttype_eqb_eq in H2. apply tok_is_true in H3 as (y & r & -> & H3). exists x, y, r. auto.
Qed.

Lemma push_pushed : forall c s1 tok te ty p used, used <> [] -> ptok c = used ++ p_tok s1 ->
  p_err s1 = false -> p_msgs s1 = pmsg c -> own_syms ty tok te p = syms used ->
  (exists a, ptok c = a ++ tok) -> written (mknode ty tok te p (n_pend c)) -> tok <> [] ->
  (unary_has_operand (ptok c) -> forall e, node_expr (mknode ty tok te p []) = Some e -> complete e) ->
  pushed c (push_ast_node c s1 tok te ty p).
Proof.
  intros c s1 tok te ty p used H1 H2 H3 H4 H5 H6 H7 H8 H9.
  exists used, (mknode ty tok te p (n_pend c)). repeat split; auto.
Qed.

Lemma adv_reported : forall c s1 s0 used pre m b, adv s0 s1 used -> p_msgs s0 = pmsg c -> p_err s0 = false ->
  ptok c = pre ++ p_tok s0 -> located' (ptok c) m ->
  reported c (with_st c (mkpst (p_tok s1) b (m :: p_msgs s1))).
Proof.
  intros c s1 s0 used pre m b A M E T L. destruct A as [T1 _ _ (new & M1 & _ & _ & L1)].
  exists (pre ++ used), (m :: new). unfold ptok, pmsg in *. cbn. rewrite T, T1, M1, M.
  split; [now rewrite app_assoc|]. split; [easy|]. split; [discriminate|].
  constructor; [now rewrite <- T1, <- T|]. eapply Forall_impl; [|apply located_located'; exact L1].
  intros x. rewrite T1. apply located'_app.
Qed.

Lemma err_reported : forall c s1 s0 used pre, adv s0 s1 used -> p_msgs s0 = pmsg c -> p_err s0 = false ->
  ptok c = pre ++ p_tok s0 -> p_err s1 = true ->
  reported c (with_st c s1).
Proof.
  intros c s1 s0 used pre A M E T EE. destruct (adv_new _ _ _ A E EE) as (new & M1 & HN & L).
  exists (pre ++ used), new. unfold ptok, pmsg in *. cbn. rewrite T, M1, M, (a_tok _ _ _ A).
  split; [now rewrite app_assoc|]. split; [easy|]. split; [easy|].
  eapply Forall_impl; [|exact L]. intros x. rewrite (a_tok _ _ _ A). apply located'_app.
Qed.

Lemma reported_failed : forall c c', reported c c' -> p_err (n_st c') = true -> failed c c'.
Proof. intros c c' (u & n & H1 & H2 & H3 & H4) E. exists u, n. repeat split; auto. Qed.

(** ** Keyword statements *)

Lemma return_spec : forall f c t r, p_err (n_st c) = false -> ptok c = t :: r ->
  t_type t = T_KW_RETURN -> (length (ptok c) < f)%nat ->
  wp True (parse_return f c) (fun c' _ => failed c c' \/ pushed c c').
Proof.
  intros f c t r E ET Y HL. unfold parse_return, next_token. unfold ptok in ET, HL. rewrite ET. cbn [obind].
  apply wp_bind. eapply wp_mono; [apply (expr_run (set_tok (n_st c) r) E f)|].
  { rewrite ET in HL. cbn in *. lia. }
  cbn beta. intros s1 e (used & A & H). cbn [wp].
  assert (T : ptok c = (t :: used) ++ p_tok s1) by (unfold ptok; rewrite ET; cbn; f_equal; apply (a_tok _ _ _ A)).
  assert (B : begins (t :: r) N_RETURN) by (exists t, r; split; [easy|]; rewrite Y; now left).
  destruct e as [e|].
  - right. destruct H as (HN & HE & HM & HY & HC).
    apply push_pushed with (t :: used); auto; try discriminate.
    + cbn [own_syms yield_opt]. unfold own_syms. cbn [yield_opt]. rewrite HY.
      change (t :: used) with ([t] ++ used). now rewrite syms_app.
    + exists []. unfold ptok. now rewrite ET.
    + cbn. split; eauto.
    + unfold ptok. rewrite ET. intros U e0 Q. inversion Q; subst e0. apply HC. apply U.
  - destruct (p_err s1) eqn:EE.
    + left. destruct (adv_new _ _ _ A E EE) as (new & M & HN & L). exists (t :: used), new.
      repeat split; auto.
      eapply Forall_impl; [|exact L]. unfold ptok. rewrite ET. intros m. apply (located'_app [t]).
    + right. destruct (H eq_refl) as (-> & HM).
      apply push_pushed with [t]; auto; try discriminate.
      * unfold own_syms. cbn [yield_opt firstn]. apply app_nil_r.
      * exists []. unfold ptok. now rewrite ET.
      * cbn. split; auto.
Qed.

Lemma condition_spec : forall f ty c t r, p_err (n_st c) = false -> ptok c = t :: r ->
  keyword ty (t_type t) -> In ty [N_IF; N_ELIF; N_WHILE] -> (length (ptok c) < f)%nat ->
  wp True (parse_condition f ty c) (fun c' _ => failed c c' \/ pushed c c').
Proof.
  intros f ty c t r E ET K Y HL. unfold parse_condition. unfold ptok in ET, HL. rewrite ET.
  destruct r as [|t2 r].
  { cbn [wp]. left. exists [], []. unfold ptok. repeat split; auto. right. exists [], t. rewrite ET. split; [easy|].
    unfold keyword in K. cbn in K, Y.
    destruct Y as [<-|[<-|[<-|[]]]];
      repeat (destruct K as [K|K]; [inversion K as [K']; cbn; tauto|]); easy. }
  unfold next_token. rewrite ET. cbn [obind]. apply wp_bind.
  eapply wp_mono; [apply (expr_run (set_tok (n_st c) (t2 :: r)) E f)|].
  { rewrite ET in HL. cbn in *. lia. }
  cbn beta. intros s1 e (used & A & H).
  assert (T : ptok c = (t :: used) ++ p_tok s1) by (unfold ptok; rewrite ET; cbn; f_equal; apply (a_tok _ _ _ A)).
  destruct e as [e|].
  - destruct H as (HN & HE & HM & HY & HC). rewrite HE. cbn [wp]. right.
    apply push_pushed with (t :: used); auto; try discriminate.
    + replace (own_syms ty (t :: t2 :: r) (t :: t2 :: r) (PExpr e)) with (syms [t] ++ yield e)
        by (cbn in Y; destruct Y as [<-|[<-|[<-|[]]]]; reflexivity).
      rewrite HY. change (t :: used) with ([t] ++ used). now rewrite syms_app.
    + exists []. unfold ptok. now rewrite ET.
    + assert (B : begins (t :: t2 :: r) ty) by (exists t, (t2 :: r); auto).
      cbn in Y; destruct Y as [<-|[<-|[<-|[]]]]; cbn; eauto.
    + unfold ptok. rewrite ET. intros U e0 Q. inversion Q; subst e0. apply HC. apply U.
  - cbn [wp]. left. apply reported_failed; [|reflexivity].
    apply (adv_reported c s1 (set_tok (n_st c) (t2 :: r)) used [t] _ true A); auto.
    destruct (p_tok s1) as [|b q] eqn:EB; cbn; [now (right; left)|]. do 2 right. exists b. split; [|easy].
    rewrite T. apply in_or_app. right. now left.
Qed.

Lemma simple_spec : forall ty c t r, p_err (n_st c) = false -> ptok c = t :: r ->
  keyword ty (t_type t) ->
  In ty [N_ELSE; N_UNREACHABLE; N_COMMENT; N_NOOP; N_BREAK; N_CONTINUE] ->
  wp True (parse_simple ty c) (fun c' _ => pushed c c').
Proof.
  intros ty c t r E ET K Y. unfold parse_simple, next_token. unfold ptok in ET. rewrite ET. cbn [obind wp].
  assert (B : begins (t :: r) ty) by (exists t, r; auto).
  apply push_pushed with [t]; auto; try discriminate.
  - cbn in Y. destruct Y as [<-|[<-|[<-|[<-|[<-|[<-|[]]]]]]]; unfold own_syms; cbn [yield_opt firstn]; apply app_nil_r.
  - exists []. unfold ptok. now rewrite ET.
  - cbn in Y. destruct Y as [<-|[<-|[<-|[<-|[<-|[<-|[]]]]]]]; cbn; auto.
Qed.

Lemma namespace_spec : forall c t r, p_err (n_st c) = false -> ptok c = t :: r ->
  t_type t = T_KW_NAMESPACE ->
  wp True (parse_namespace c) (fun c' _ => failed c c' \/ pushed c c').
Proof.
  intros c t r E ET Y. unfold parse_namespace. unfold ptok in ET. rewrite ET.
  destruct r as [|x r].
  { cbn [wp]. left. exists [], []. unfold ptok. repeat split; auto. right. exists [], t.
    rewrite ET, Y. cbn. tauto. }
  cbn [wp]. right.
  assert (B : begins (t :: x :: r) N_NAMESPACE)
    by (exists t, (x :: r); split; [easy|]; rewrite Y; unfold keyword; cbn; tauto).
  apply push_pushed with [t; x]; auto; try discriminate.
  - unfold own_syms. cbn [firstn yield_opt]. now rewrite app_nil_r.
  - exists []. unfold ptok. now rewrite ET.
  - cbn. split; [easy|]. split; [easy|lia].
Qed.

Lemma import_spec : forall c t r, p_err (n_st c) = false -> ptok c = t :: r ->
  t_type t = T_KW_IMPORT ->
  wp True (parse_import c) (fun c' _ => failed c c' \/ pushed c c').
Proof.
  intros c t r E ET Y. unfold parse_import. unfold ptok in ET. rewrite ET.
  assert (B : begins (t :: r) N_IMPORT)
    by (exists t, r; split; [easy|]; rewrite Y; unfold keyword; cbn; tauto).
  destruct r as [|x r].
  { cbn [wp]. left. exists [], [mkmsg P_IMPORT_IDENT (Some (t_loc t))]. unfold ptok.
    repeat split; auto. - left. discriminate.
    - constructor; [|constructor]. do 2 right. exists t. rewrite ET. split; [now left|easy]. }
  destruct (ttype_eqb (t_type x) T_IDENTIFIER) eqn:X; cbn [wp].
  - right. apply ttype_eqb_eq in X. apply push_pushed with [t; x]; auto; try discriminate.
    + unfold own_syms. cbn [firstn yield_opt]. now rewrite app_nil_r.
    + exists []. unfold ptok. now rewrite ET.
    + cbn. split; [easy|]. split; [easy|]. exists t, x, r. auto.
  - left. exists [], [mkmsg P_IMPORT_IDENT (Some (t_loc x))]. unfold ptok. repeat split; auto.
    + left. discriminate.
    + constructor; [|constructor]. do 2 right. exists x. rewrite ET. split; [right; now left|easy].
Qed.

(** ** Definitions and assignments *)

Definition spost (c c' : nctx) (r : presult) : Prop :=
  match r with
  | RESULT_IGNORE => c' = c
  | RESULT_ERROR => reported c c'
  | RESULT_OK => pushed c c'
  end.

Lemma assign_spec : forall f c, p_err (n_st c) = false -> ptok c <> [] -> (length (ptok c) < f)%nat ->
  wp (safe_end (ptok c)) (parse_var_assign f c) (spost c).
Proof.
  intros f c E HN HL. unfold parse_var_assign, ptok in *.
  destruct (p_tok (n_st c)) as [|t te] eqn:ET; [easy|].
  destruct (is_identifier_like t && tok_is te T_OPER_EQUAL) eqn:X; [|now cbn].
  apply andb_true_iff in X as (X1 & X2). apply ident_like_true in X1.
  apply tok_is_true in X2 as (q & r & -> & YQ). unfold next_token. cbn [set_tok p_tok obind].
  apply wp_bind. eapply wp_safe with True; [|easy].
  eapply wp_mono; [apply (expr_run (set_tok (n_st c) r) E f)|].
  { cbn in *. lia. }
  cbn beta. intros s1 e (used & A & H).
  assert (T : ptok c = (t :: q :: used) ++ p_tok s1)
    by (unfold ptok; rewrite ET; cbn; do 2 f_equal; apply (a_tok _ _ _ A)).
  destruct e as [e|]; cbn [wp].
  - destruct H as (HN2 & HE & HM & HY & HC).
    apply push_pushed with (t :: q :: used); auto; try discriminate.
    + unfold own_syms. cbn [yield_opt]. rewrite HY.
      change (through (t :: q :: r) (q :: r)) with (through ([t] ++ q :: r) (q :: r)).
      rewrite through_app. change (t :: q :: used) with (([t] ++ [q]) ++ used). now rewrite (syms_app ([t] ++ [q]) used).
    + exists []. unfold ptok. now rewrite ET.
    + cbn. exists e, t, q, r. auto.
    + unfold ptok. rewrite ET. intros U e0 Q. inversion Q; subst e0. apply HC. apply U.
  - destruct (p_tok s1) as [|b q1] eqn:EB; cbn [wp].
    + intros S. assert (S2 : safe_end r) by (now apply (safe_end_app [t; q])).
      assert (HR : r <> []).
      { intros ->. apply (safe_end_last [t]) in S. congruence. }
      now apply (adv_safe _ _ _ A S2 HR).
    + apply (adv_reported c s1 (set_tok (n_st c) r) used [t; q] _ (p_err s1) A); auto.
      do 2 right. exists b. split; [|easy]. rewrite T. apply in_or_app. right. now left.
Qed.

Lemma bare_declaration_written : forall x ty, t_type x = T_NEW_IDENTIFIER -> bare_type ty ->
  bare_declaration (x :: ty).
Proof. intros x ty H1 H2. now constructor. Qed.

Lemma explicit_safe : forall a x ty q, t_type x = T_NEW_IDENTIFIER -> bare_type ty ->
  ~ safe_end (a ++ x :: ty ++ [q]).
Proof.
  intros a x ty q Y B [H|(c & nl & E & YN & D)]; [now destruct a|].
  replace (a ++ x :: ty ++ [q]) with ((a ++ x :: ty) ++ [q]) in E
    by (rewrite <- app_assoc; reflexivity).
  apply app_inj_tail in E as (E & _). apply (D a (x :: ty)); [now symmetry|]. now constructor.
Qed.

Lemma var_def_spec : forall f c, p_err (n_st c) = false -> ptok c <> [] -> (length (ptok c) < f)%nat ->
  wp (safe_end (ptok c)) (parse_var_def f c) (spost c).
Proof.
  intros f c E HNE HL. unfold parse_var_def.
  destruct (p_tok (n_st c)) as [|t r] eqn:ET; [unfold ptok in HNE; congruence|].
  set (is_mut := ttype_eqb (t_type t) T_KW_MUT). set (is_exp := negb is_mut && ttype_eqb (t_type t) T_KW_EXPORT).
  set (name := if is_mut || is_exp then r else t :: r).
  assert (exists mods, t :: r = mods ++ name /\ modifiers mods [T_KW_MUT; T_KW_EXPORT] /\
     modifier mods T_KW_MUT is_mut /\ modifier mods T_KW_EXPORT is_exp) as (mods & EM & MM & M1 & M2).
  { unfold name, is_exp, is_mut, modifiers, modifier.
    destruct (ttype_eqb (t_type t) T_KW_MUT) eqn:X1.
    - apply ttype_eqb_eq in X1. exists [t]. cbn. split; [easy|]. split; [right; exists t; auto|].
      split; [split; eauto|]. split; [discriminate|]. intros (m & Q & Z). inversion Q; subst m. congruence.
    - destruct (ttype_eqb (t_type t) T_KW_EXPORT) eqn:X2.
      + apply ttype_eqb_eq in X2. exists [t]. cbn. split; [easy|]. split; [right; exists t; auto|].
        split; [split; [discriminate|]; intros (m & Q & Z); inversion Q; subst m; congruence|].
        split; eauto.
      + exists []. cbn. split; [easy|]. split; [now left|].
        split; (split; [discriminate|]; intros (m & Q & Z); discriminate). }
  assert (TC : ptok c = mods ++ name) by (unfold ptok; now rewrite ET).
  clearbody is_mut is_exp name.
  destruct name as [|x after_name] eqn:EN; [now cbn|]. rewrite <- EN in *.
  assert (HF : forall i ty q r1, name = x :: ty ++ q :: r1 ->
     (safe_end (ptok c) -> r1 <> []) ->
     definition_written (ptok c) (q :: r1) name i (negb is_mut) is_exp ->
     wp (safe_end (ptok c)) (finish_var_def f c name i (negb is_mut) is_exp (q :: r1)) (spost c)).
  { intros i ty q r1 EY HR HD. unfold finish_var_def. rewrite ET. apply wp_bind. eapply wp_safe with True; [|easy].
    assert (TC2 : ptok c = (mods ++ x :: ty ++ [q]) ++ r1).
    { rewrite TC, EY, <- !app_assoc. cbn. now rewrite <- app_assoc. }
    eapply wp_mono; [apply (expr_run (set_tok (n_st c) r1) E f)|].
    { cbn [set_tok p_tok]. rewrite TC2, app_length in HL. lia. }
    cbn beta. intros s1 e (used & A & H).
    assert (T : ptok c = ((mods ++ x :: ty ++ [q]) ++ used) ++ p_tok s1).
    { rewrite TC2, <- (app_assoc (mods ++ x :: ty ++ [q])). f_equal. apply (a_tok _ _ _ A). }
    destruct (p_err s1) eqn:EE.
    { cbn [wp spost]. now apply (err_reported c s1 (set_tok (n_st c) r1) used (mods ++ x :: ty ++ [q])). }
    destruct e as [e|].
    - destruct H as (HN & _ & HM & HY & HC).
      assert (HP : pushed c (push_ast_node c s1 (t :: r) (q :: r1) N_VAR_DEF
                   (PVarDef name e i (negb is_mut) is_exp))).
      { apply push_pushed with ((mods ++ x :: ty ++ [q]) ++ used); auto; try discriminate.
        - destruct mods; discriminate.
        - unfold own_syms. cbn [yield_opt]. rewrite HY, syms_app. f_equal.
          rewrite <- ET. change (p_tok (n_st c)) with (ptok c). rewrite TC, EY.
          replace (mods ++ x :: ty ++ q :: r1) with ((mods ++ x :: ty) ++ q :: r1)
            by (rewrite <- app_assoc; reflexivity).
          rewrite through_app, <- app_assoc. reflexivity.
        - exists []. unfold ptok. now rewrite ET.
        - cbn. exists name, e, i, (negb is_mut), is_exp. split; [easy|].
          unfold ptok in HD. now rewrite ET in HD.
        - intros U e0 Q. inversion Q; subst e0. apply HC. rewrite TC2 in U. now apply uho_app in U. }
      destruct (p_tok s1) as [|b q1] eqn:EB; [exact HP|].
      destruct (ttype_eqb (t_type b) T_NEWLINE); [exact HP|]. cbn [wp spost].
      exists ((mods ++ x :: ty ++ [q]) ++ used), [mkmsg P_EXPECTED_NEWLINE (Some (t_loc b))].
      rewrite <- EB in T. split; [exact T|]. split; [cbn; now rewrite HM|]. split; [discriminate|].
      constructor; [|constructor]. do 2 right. exists b. split; [|easy]. rewrite T, EB. apply in_or_app. right. now left.
    - destruct (p_tok s1) as [|b q1] eqn:EB; cbn [wp].
      + intro S. specialize (HR S). rewrite TC2 in S. apply safe_end_app in S.
        now apply (adv_safe _ _ _ A S HR).
      + cbn [spost]. rewrite <- EB in T.
        apply (adv_reported c s1 (set_tok (n_st c) r1) used (mods ++ x :: ty ++ [q]) _ (p_err s1) A); auto.
        do 2 right. exists b. split; [|easy]. rewrite T, EB. apply in_or_app. right. now left. }
  destruct (is_explicit_type name) as [te|] eqn:EX.
  - apply explicit_type_spec in EX as (x' & ty & EY & YX & B).
    destruct te as [|q r1].
    + cbn [wp spost]. exists [], [mkmsg P_MISSING_ASSIGNMENT (Some (t_loc x))].
      repeat split; auto; try discriminate. constructor; [|constructor]. do 2 right. exists x.
      split; [|easy]. rewrite TC, EN. apply in_or_app. right. now left.
    + assert (x' = x) by congruence. subst x'. apply (HF false ty q r1 EY).
      * intros S ->. rewrite TC, EY in S. now apply (explicit_safe mods x ty q YX B).
      * exists mods. rewrite negb_involutive. repeat (split; [assumption|]). exists x, ty, q, r1. auto.
  - destruct (token_cmp2 name T_IDENTIFIER T_OPER_AUTO_EQUAL) as [[|]|] eqn:CM.
    + apply token_cmp2_true in CM as (x' & q & r1 & EY & YX & YQ).
      assert (after_name = q :: r1) by congruence. assert (x' = x) by congruence. subst x'.
      rewrite H. apply (HF true [] q r1 EY).
      * intros S ->. rewrite TC, EY in S.
        change (mods ++ [x; q]) with (mods ++ [x] ++ [q]) in S. rewrite app_assoc in S.
        apply safe_end_last in S. congruence.
      * exists mods. rewrite negb_involutive. repeat (split; [assumption|]). exists x, q, r1. auto.
    + now cbn.
    + rewrite EN in CM. discriminate.
Qed.
