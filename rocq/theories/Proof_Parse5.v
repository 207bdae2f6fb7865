(** Proofs about the parser: what the parts of expressions record. *)
From Coq Require Import List Arith NArith Bool Lia.
From Verif Require Import Base Model_Token Model_Parse Spec_Parse Proof_Parse Proof_Parse2.
Import ListNotations.
Open Scope list_scope.
Open Scope N_scope.

Fixpoint expr_ind' (P : expr -> Prop)
    (HV : forall t, P (EVar t)) (HC : forall t, P (EConst t))
    (HF : forall name args n, Forall (fun a => P (snd a)) args -> P (ECall name args n))
    (HU0 : forall o, P (EUn o None)) (HU : forall o r, P r -> P (EUn o (Some r)))
    (HB0 : forall o r, P r -> P (EBin o None r)) (HB : forall o l r, P l -> P r -> P (EBin o (Some l) r))
    (e : expr) {struct e} : P e :=
  let rec := expr_ind' P HV HC HF HU0 HU HB0 HB in
  match e with
  | EVar t => HV t
  | EConst t => HC t
  | ECall name args n =>
      HF name args n
        ((fix go (l : list (list token * expr)) : Forall (fun a => P (snd a)) l :=
            match l with
            | [] => Forall_nil _
            | a :: r => Forall_cons a (rec (snd a)) (go r)
            end) args)
  | EUn o None => HU0 o
  | EUn o (Some r) => HU o r (rec r)
  | EBin o None r => HB0 o r (rec r)
  | EBin o (Some l) r => HB o l r (rec l) (rec r)
  end.

Lemma obind_ret : forall S A T B (r : out S A) (k : S -> A -> out T B) t b,
  obind r k = Ret t b -> exists s a, r = Ret s a /\ k s a = Ret t b.
Proof. intros S A T B [s a| |] k t b H; cbn in H; [eauto|discriminate|discriminate]. Qed.

Lemma next_token_ret : forall s s' x, next_token s = Ret s' x -> exists t, p_tok s = t :: p_tok s'.
Proof.
  intros s s' x H. unfold next_token in H. destruct (p_tok s) as [|t r] eqn:E; [discriminate|].
  inversion H; subst. now exists t.
Qed.

Lemma shaped_incl : forall ts ts' e, incl ts ts' -> shaped ts e -> shaped ts' e.
Proof.
  intros ts ts' e HI. induction e using expr_ind'; intro S; inversion S; subst.
  - constructor; auto.
  - constructor; auto.
  - rewrite Forall_forall in H. constructor; auto.
    + intros p a I. match goal with X : forall p a, _ -> exists t r, _ |- _ => destruct (X p a I) as (t & r & E & J) end. eauto.
    + intros p a I. apply (H (p, a) I). eauto.
  - constructor. discriminate.
  - constructor. intros a E. inversion E; subst. auto.
  - constructor; [discriminate|auto].
  - constructor; [|auto]. intros a E. inversion E; subst. auto.
Qed.

Definition eok (s s' : pst) (e : option expr) : Prop :=
  incl (p_tok s') (p_tok s) /\ forall a, e = Some a -> shaped (p_tok s) a.
Definition eshape (pe : eparser) : Prop := forall s s' e, pe s = Ret s' e -> eok s s' e.

Lemma incl_tl' : forall A (t : A) l m, l = t :: m -> incl m l.
Proof. intros A t l m ->. intros x H. now right. Qed.

Lemma paren_shape : forall pe s s' e, eshape pe -> parse_paren_expr pe s = Ret s' e -> eok s s' e.
Proof.
  intros pe s s' e HP H. unfold parse_paren_expr in H. destruct (p_tok s) as [|t r] eqn:E; [discriminate|].
  apply obind_ret in H as (s0 & x & H0 & H). apply next_token_ret in H0 as (t0 & H0).
  apply incl_tl' in H0. apply obind_ret in H as (s1 & e1 & H1 & H). destruct (HP _ _ _ H1) as (I1 & S1).
  assert (I : incl (p_tok s1) (p_tok s)) by (eapply incl_tran; eauto).
  destruct e1 as [e1|].
  - destruct (tok_is (p_tok s1) T_PAREN_CLOSE).
    + apply obind_ret in H as (s2 & y & H2 & H). apply next_token_ret in H2 as (t2 & H2). apply incl_tl' in H2.
      inversion H; subst. split; [eapply incl_tran; eauto|]. intros a Q. inversion Q; subst.
      eapply shaped_incl; [|now apply S1]. easy.
    + inversion H; subst. split; [exact I|discriminate].
  - inversion H; subst. split; [exact I|discriminate].
Qed.

Lemma w16_succ : forall n, w16 (w16 n + 1) = w16 (n + 1).
Proof. intro n. unfold w16. now rewrite N.add_mod_idemp_l. Qed.

Lemma call_loop_shape : forall pe f name args k s s' r, eshape pe ->
  call_loop pe f name args k s = Ret s' r -> incl (p_tok s') (p_tok s) /\
  forall args' k', r = Some (args', k') ->
    (k = w16 (N.of_nat (length args)) -> k' = w16 (N.of_nat (length args'))) /\
    forall p a, In (p, a) args' -> In (p, a) args \/
      (exists t q, p = t :: q /\ In t (p_tok s)) /\ shaped (p_tok s) a.
Proof.
  intros pe f. induction f as [|f IH]; intros name args k s s' r HP H; [discriminate|].
  cbn [call_loop] in H. destruct (p_tok s) as [|t q] eqn:E.
  { inversion H; subst. cbn [fail report set_err p_tok]. rewrite E. split; [apply incl_refl|discriminate]. }
  destruct (ttype_eqb (t_type t) T_COMMA).
  { inversion H; subst. cbn [fail report set_err p_tok]. rewrite E. split; [apply incl_refl|discriminate]. }
  apply obind_ret in H as (s1 & e1 & H1 & H). destruct (HP _ _ _ H1) as (I1 & S1). rewrite E in I1, S1.
  set (args1 := match e1 with Some e => _ | None => _ end) in *.
  set (k1 := match e1 with Some _ => w16 (k + 1) | None => k end) in *.
  assert (A1 : forall p a, In (p, a) args1 -> In (p, a) args \/ (exists x y, p = x :: y /\ In x (t :: q)) /\ shaped (t :: q) a).
  { unfold args1. destruct e1 as [e1|]; [|tauto]. intros p a [Q|Q]; [|tauto]. inversion Q; subst. right.
    split; [exists t, q; split; [easy|now left]|]. now apply S1. }
  assert (K1 : k = w16 (N.of_nat (length args)) -> k1 = w16 (N.of_nat (length args1))).
  { unfold k1, args1. destruct e1 as [e1|]; [|tauto]. intros ->. rewrite w16_succ. cbn [length]. f_equal. lia. }
  clearbody args1 k1.
  destruct (p_tok s1) as [|t1 r1] eqn:E1.
  { inversion H; subst. cbn [fail report set_err p_tok]. rewrite E1. split; [easy|discriminate]. }
  destruct (ttype_eqb (t_type t1) T_NEWLINE).
  { inversion H; subst. cbn [fail report set_err p_tok]. rewrite E1. split; [easy|discriminate]. }
  destruct (ttype_eqb (t_type t1) T_PAREN_CLOSE).
  { inversion H; subst. rewrite E1. split; [easy|]. intros args' k' Q. inversion Q; subst. auto. }
  destruct (ttype_eqb (t_type t1) T_COMMA).
  2:{ inversion H; subst. cbn [fail report set_err p_tok]. rewrite E1. split; [easy|discriminate]. }
  destruct (IH _ _ _ _ _ _ HP H) as (I2 & S2). cbn [set_tok p_tok] in I2, S2.
  assert (IR : incl r1 (t :: q)) by (intros x X; apply I1; now right).
  split; [now apply incl_tran with r1|]. intros args' k' Q. destruct (S2 _ _ Q) as (K2 & A2). split; [auto|].
  intros p a I. destruct (A2 p a I) as [I'|((x & y & EX & JX) & SX)].
  - apply A1, I'.
  - right. split; [exists x, y; split; [easy|now apply IR]|]. now apply (shaped_incl r1).
Qed.

Lemma call_shape : forall pe f s s' e t r, eshape pe -> p_tok s = t :: r -> name_like (t_type t) ->
  parse_func_call pe f s = Ret s' e -> eok s s' e.
Proof.
  intros pe f s s' e t r HP E Y H. unfold parse_func_call in H. rewrite E in H.
  destruct r as [|p r]; [discriminate|]. apply obind_ret in H as (s1 & a & H1 & H).
  destruct (call_loop_shape _ _ _ _ _ _ _ _ HP H1) as (I1 & S1). cbn [set_tok p_tok] in I1, S1.
  assert (IR : incl r (p_tok s)) by (rewrite E; intros x X; now right; right).
  destruct a as [(args, n)|].
  - apply obind_ret in H as (s2 & y & H2 & H). apply next_token_ret in H2 as (t2 & H2). apply incl_tl' in H2.
    inversion H; subst. split.
    { eapply incl_tran; [exact H2|]. eapply incl_tran; eauto. }
    intros a Q. inversion Q; subst a. destruct (S1 _ _ eq_refl) as (K & A). constructor.
    + rewrite E. now left.
    + exact Y.
    + rewrite rev_length. now apply K.
    + intros p0 a0 I. rewrite <- in_rev in I. destruct (A _ _ I) as [[]|((x & z & X & J) & _)]. eauto.
    + intros p0 a0 I. rewrite <- in_rev in I. destruct (A _ _ I) as [[]|(_ & SX)]. now apply (shaped_incl r).
  - inversion H; subst. split; [|discriminate]. eapply incl_tran; eauto.
Qed.

Lemma root_shape : forall pe f s s' e, eshape pe -> parse_root_expr pe f s = Ret s' e -> eok s s' e.
Proof.
  intros pe f s s' e HP H. unfold parse_root_expr in H. destruct (p_tok s) as [|t r] eqn:E; [discriminate|].
  destruct (ttype_eqb (t_type t) T_PAREN_OPEN); [now apply (paren_shape pe)|].
  destruct (is_identifier_like t && tok_is r T_PAREN_OPEN) eqn:X.
  { apply andb_true_iff in X as (X & _). apply ident_like_true in X. now apply (call_shape pe f s s' e t r). }
  destruct (is_single_token_expr (t_type t)) eqn:X2.
  - unfold parse_single_token_expr in H. rewrite E in H. apply obind_ret in H as (s1 & y & H1 & H).
    apply next_token_ret in H1 as (t1 & H1). inversion H; subst. split; [now apply (incl_tl' _ t1)|].
    intros a Q. destruct (is_identifier_like t) eqn:X3; inversion Q; subst.
    + apply ident_like_true in X3. constructor; [rewrite E; now left|exact X3].
    + constructor; [rewrite E; now left|]. unfold is_identifier_like in X3.
      destruct (t_type t); cbn in *; try discriminate; tauto.
  - inversion H; subst. split; [apply incl_refl|discriminate].
Qed.

Lemma single_shape : forall pe f s s' e, eshape pe -> parse_single_expr pe f s = Ret s' e -> eok s s' e.
Proof.
  intros pe f s s' e HP H. unfold parse_single_expr in H. destruct (p_tok s) as [|t r] eqn:E.
  { inversion H; subst. split; [apply incl_refl|discriminate]. }
  destruct (get_potential_unary_oper (t_type t)); [|now apply (root_shape pe f)].
  apply obind_ret in H as (s0 & x & H0 & H). apply next_token_ret in H0 as (t0 & H0). apply incl_tl' in H0.
  destruct (p_tok s0) as [|t1 r1] eqn:E0.
  { inversion H; subst. split; [|discriminate]. cbn [fail report set_err p_tok]. now rewrite E0. }
  destruct (get_potential_unary_oper (t_type t1)).
  { inversion H; subst. split; [|discriminate]. cbn [fail report set_err p_tok]. now rewrite E0. }
  apply obind_ret in H as (s1 & y & H1 & H). destruct (root_shape _ _ _ _ _ HP H1) as (I1 & S1). rewrite E0 in I1, S1.
  inversion H; subst. split; [now apply incl_tran with (t1 :: r1)|]. intros a Q. inversion Q; subst. constructor.
  intros a Z. eapply shaped_incl; [exact H0|]. now apply S1.
Qed.

Lemma rhs_shape : forall pe f s s' x, eshape pe -> parse_expr_rhs pe f s = Ret s' x ->
  incl (p_tok s') (p_tok s) /\ forall o e, x = Some (o, e) -> shaped (p_tok s) e.
Proof.
  intros pe f s s' x HP H. unfold parse_expr_rhs in H. destruct (p_tok s) as [|t r] eqn:E.
  { inversion H; subst. rewrite E. split; [apply incl_refl|discriminate]. }
  destruct (token_type_to_binary_expr_type (t_type t)) as [[o|o]|].
  - apply obind_ret in H as (s0 & y & H0 & H). apply next_token_ret in H0 as (t0 & H0). apply incl_tl' in H0.
    apply obind_ret in H as (s1 & e1 & H1 & H). destruct (single_shape _ _ _ _ _ HP H1) as (I1 & S1). rewrite E in H0.
    destruct e1 as [e1|]; inversion H; subst.
    + split; [eapply incl_tran; eauto|]. intros o1 e Q. inversion Q; subst. eapply shaped_incl; [exact H0|]. now apply S1.
    + split; [|discriminate]. cbn [fail report set_err p_tok]. eapply incl_tran; eauto.
  - inversion H; subst. split; [|discriminate]. cbn [fail report set_err p_tok]. rewrite E. apply incl_refl.
  - inversion H; subst. split; [|discriminate]. rewrite E. apply incl_refl.
Qed.

Lemma rotate_shape : forall ts top o r, shaped ts top -> shaped ts r -> shaped ts (rotate top o r).
Proof.
  intros ts top o r HT HR. unfold rotate. destruct (bin_prec o <? expr_prec top).
  2:{ constructor; [|exact HR]. intros a Q. now inversion Q; subst. }
  destruct HT; cbn [get_rhs set_rhs]; try (now constructor).
  - constructor. intros a Q. inversion Q; subst. now constructor.
  - constructor; [easy|]. constructor; [|exact HR]. intros a Q. now inversion Q; subst.
Qed.

Lemma loop_shape : forall pe f top s s' e ts, eshape pe -> expr_loop pe f top s = Ret s' e ->
  incl (p_tok s) ts -> shaped ts top ->
  incl (p_tok s') (p_tok s) /\ forall a, e = Some a -> shaped ts a.
Proof.
  intros pe f. induction f as [|f IH]; intros top s s' e ts HP H HI HT; [discriminate|]. cbn [expr_loop] in H.
  apply obind_ret in H as (s1 & x & H1 & H). destruct (rhs_shape _ _ _ _ _ HP H1) as (I1 & S1).
  destruct (p_err s1). { inversion H; subst. split; [easy|discriminate]. }
  destruct x as [(o, r)|].
  - destruct (IH _ _ _ _ ts HP H) as (I2 & S2).
    + now apply incl_tran with (p_tok s).
    + apply rotate_shape; [easy|]. apply (shaped_incl (p_tok s)); [easy|]. now apply (S1 o r).
    + split; [now apply incl_tran with (p_tok s1)|exact S2].
  - inversion H; subst. split; [easy|]. intros a Q. now inversion Q; subst.
Qed.

Lemma expression_shape : forall f, eshape (parse_expression f).
Proof.
  induction f as [|f IH]; intros s s' e H; [discriminate|]. cbn [parse_expression] in H.
  destruct (p_tok s) as [|t r] eqn:E. { inversion H; subst. split; [apply incl_refl|discriminate]. }
  apply obind_ret in H as (s1 & h & H1 & H). destruct (single_shape _ _ _ _ _ IH H1) as (I1 & S1).
  destruct (p_err s1). { inversion H; subst. split; [easy|discriminate]. }
  destruct h as [h|].
  - destruct (loop_shape _ _ _ _ _ _ (p_tok s) IH H I1 (S1 _ eq_refl)) as (I2 & S2).
    split; [now apply incl_tran with (p_tok s1)|exact S2].
  - inversion H; subst. split; [easy|discriminate].
Qed.

(** * Trees *)

Definition exprs_shaped (ts : list token) (n : node) : Prop := forall e, node_expr n = Some e -> shaped ts e.
Definition cok (ts : list token) (c : nctx) : Prop :=
  incl (p_tok (n_st c)) ts /\ tall (exprs_shaped ts) (n_done c) /\ tall (exprs_shaped ts) (n_pend c).

Lemma push_cok : forall ts c s tok te ty p, cok ts c -> incl (p_tok s) ts ->
  (forall e, node_expr (mknode ty tok te p []) = Some e -> shaped ts e) ->
  cok ts (push_ast_node c s tok te ty p).
Proof.
  intros ts c s tok te ty p (H1 & H2 & H3) HI HE. split; [easy|]. split.
  - cbn [push_ast_node n_done]. now apply tall_cons.
  - apply tall_nil.
Qed.

Lemma st_cok : forall ts c s, cok ts c -> incl (p_tok s) ts -> cok ts (with_st c s).
Proof. intros ts c s (H1 & H2 & H3) HI. repeat split; auto. Qed.

Lemma expr_cok : forall ts f s s' e, parse_expression f s = Ret s' e -> incl (p_tok s) ts ->
  incl (p_tok s') ts /\ forall a, e = Some a -> shaped ts a.
Proof.
  intros ts f s s' e H HI. destruct (expression_shape f _ _ _ H) as (I & S). split.
  - now apply incl_tran with (p_tok s).
  - intros a Q. apply (shaped_incl (p_tok s)); auto.
Qed.

Lemma next_cok : forall ts s s' x, next_token s = Ret s' x -> incl (p_tok s) ts -> incl (p_tok s') ts.
Proof. intros ts s s' x H HI. apply next_token_ret in H as (t & H). intros y Y. apply HI. rewrite H. now right. Qed.

Ltac peel H s x := apply obind_ret in H as (s & x & ? & H).

Lemma return_cok : forall ts f c c' u, cok ts c -> parse_return f c = Ret c' u -> cok ts c'.
Proof.
  intros ts f c c' u HC H. unfold parse_return in H.
  apply obind_ret in H as (s0 & x & H0 & H). apply obind_ret in H as (s1 & e & H1 & H).
  pose proof (next_cok _ _ _ _ H0 (proj1 HC)) as I0. destruct (expr_cok _ _ _ _ _ H1 I0) as (I1 & S1).
  inversion H; subst. apply push_cok; [assumption|assumption|]. intros a Q. destruct e; [|discriminate]. inversion Q; subst. auto.
Qed.

Lemma condition_cok : forall ts f ty c c' u, cok ts c -> parse_condition f ty c = Ret c' u -> cok ts c'.
Proof.
  intros ts f ty c c' u HC H. unfold parse_condition in H.
  destruct (p_tok (n_st c)) as [|t [|t2 r]] eqn:E;
    try (inversion H; subst; apply st_cok; auto; apply HC).
  apply obind_ret in H as (s0 & x & H0 & H). apply obind_ret in H as (s1 & e & H1 & H).
  pose proof (next_cok _ _ _ _ H0 (proj1 HC)) as I0. destruct (expr_cok _ _ _ _ _ H1 I0) as (I1 & S1).
  destruct e as [e|]; [destruct (p_err s1)|]; inversion H; subst; try (apply st_cok; auto).
  apply push_cok; [assumption|assumption|]. intros a Q. inversion Q; subst. auto.
Qed.

Lemma simple_cok : forall ts ty c c' u, cok ts c -> parse_simple ty c = Ret c' u -> cok ts c'.
Proof.
  intros ts ty c c' u HC H. unfold parse_simple in H. apply obind_ret in H as (s0 & x & H0 & H).
  pose proof (next_cok _ _ _ _ H0 (proj1 HC)) as I0. inversion H; subst. apply push_cok; [assumption|assumption|]. discriminate.
Qed.

Lemma namespace_cok : forall ts c c' u, cok ts c -> parse_namespace c = Ret c' u -> cok ts c'.
Proof.
  intros ts c c' u HC H. unfold parse_namespace in H. pose proof (proj1 HC) as I.
  destruct (p_tok (n_st c)) as [|t [|t2 r]] eqn:E; inversion H; subst; try (apply st_cok; auto; apply HC).
  apply push_cok; [assumption| |discriminate]. cbn [set_tok p_tok]. intros x X. apply I. now right; right.
Qed.

Lemma import_cok : forall ts c c' u, cok ts c -> parse_import c = Ret c' u -> cok ts c'.
Proof.
  intros ts c c' u HC H. unfold parse_import in H. pose proof (proj1 HC) as I.
  destruct (p_tok (n_st c)) as [|t [|t2 r]] eqn:E; [discriminate| |].
  - inversion H; subst. apply st_cok; [assumption|apply HC].
  - destruct (ttype_eqb (t_type t2) T_IDENTIFIER); inversion H; subst.
    + apply push_cok; [assumption| |discriminate]. cbn [set_tok p_tok]. intros x X. apply I. now right; right.
    + apply st_cok; [assumption|apply HC].
Qed.

Lemma suffix_incl : forall A (a b : list A), incl b (a ++ b).
Proof. intros A a b x X. apply in_or_app. now right. Qed.

Lemma var_def_cok : forall ts f c c' r, cok ts c -> parse_var_def f c = Ret c' r -> cok ts c'.
Proof.
  intros ts f c c' r HC H. unfold parse_var_def in H. pose proof (proj1 HC) as I.
  destruct (p_tok (n_st c)) as [|t q] eqn:E; [discriminate|].
  set (is_mut := ttype_eqb (t_type t) T_KW_MUT) in *. set (is_exp := negb is_mut && ttype_eqb (t_type t) T_KW_EXPORT) in *.
  set (name := if is_mut || is_exp then q else t :: q) in *.
  assert (IN : incl name ts).
  { unfold name. destruct (is_mut || is_exp); [|exact I]. intros x X. apply I. now right. }
  clearbody name is_mut is_exp. destruct name as [|nt an] eqn:EN; [inversion H; subst; exact HC|]. rewrite <- EN in *.
  assert (HF : forall i te, incl te ts -> finish_var_def f c name i (negb is_mut) is_exp te = Ret c' r -> cok ts c').
  { clear H. intros i te HI H. unfold finish_var_def in H. destruct te as [|x r1]; [discriminate|].
    apply obind_ret in H as (s1 & e & H1 & H).
    destruct (expr_cok ts _ _ _ _ H1) as (I1 & S1). { cbn [set_tok p_tok]. intros y Y. apply HI. now right. }
    destruct (p_err s1). { inversion H; subst. now apply st_cok. }
    destruct e as [e|].
    - assert (PC : cok ts (push_ast_node c s1 (p_tok (n_st c)) (x :: r1) N_VAR_DEF (PVarDef name e i (negb is_mut) is_exp))).
      { apply push_cok; [assumption|assumption|]. intros a Q. inversion Q; subst. auto. }
      destruct (p_tok s1) as [|b r2] eqn:E1; [inversion H; subst; exact PC|].
      destruct (ttype_eqb (t_type b) T_NEWLINE); inversion H; subst; [exact PC|].
      apply st_cok; [exact PC|]. cbn [report p_tok]. now rewrite E1.
    - destruct (p_tok s1) as [|b r2] eqn:E1; [discriminate|]. inversion H; subst. apply st_cok; auto.
      cbn [report p_tok]. now rewrite E1. }
  destruct (is_explicit_type name) as [[|b after]|] eqn:EX.
  - inversion H; subst. apply st_cok; [assumption|apply HC].
  - apply (HF _ _) in H; auto. apply explicit_type_spec in EX as (x & ty & EX & _). rewrite EX in IN.
    intros y Y. apply IN. right. now apply suffix_incl.
  - destruct (token_cmp2 name T_IDENTIFIER T_OPER_AUTO_EQUAL) as [[|]|]; [|inversion H; subst; exact HC|discriminate].
    apply HF in H; auto. rewrite EN in IN. intros y Y. apply IN. now right.
Qed.

Lemma assign_cok : forall ts f c c' r, cok ts c -> parse_var_assign f c = Ret c' r -> cok ts c'.
Proof.
  intros ts f c c' r HC H. unfold parse_var_assign in H. pose proof (proj1 HC) as I.
  destruct (p_tok (n_st c)) as [|t te] eqn:E; [discriminate|].
  destruct (is_identifier_like t && tok_is te T_OPER_EQUAL); [|inversion H; subst; exact HC].
  apply obind_ret in H as (s0 & x & H0 & H). apply obind_ret in H as (s1 & e & H1 & H).
  assert (I0 : incl (p_tok s0) ts).
  { apply (next_cok ts) in H0; [exact H0|]. cbn [set_tok p_tok]. intros y Y. apply I. now right. }
  destruct (expr_cok _ _ _ _ _ H1 I0) as (I1 & S1). destruct e as [e|].
  - inversion H; subst. apply push_cok; [assumption|assumption|]. intros a Q. inversion Q; subst. auto.
  - destruct (p_tok s1) as [|b r2] eqn:E1; [discriminate|]. inversion H; subst. apply st_cok; auto.
    cbn [report p_tok]. now rewrite E1.
Qed.

Lemma proto_cok : forall ts c c' r, cok ts c -> parse_function_proto c = Ret c' r -> cok ts c'.
Proof.
  intros ts c c' r HC H. unfold parse_function_proto in H. pose proof (proj1 HC) as I.
  destruct (p_tok (n_st c)) as [|t q] eqn:E; [discriminate|].
  set (ext := ttype_eqb (t_type t) T_KW_EXTERNAL) in *. set (exp := ttype_eqb (t_type t) T_KW_EXPORT) in *.
  set (l := if ext || exp then q else t :: q) in *.
  assert (IN : incl l ts).
  { unfold l. destruct (ext || exp); [|exact I]. intros x X. apply I. now right. }
  clearbody l ext exp.
  destruct (token_cmp2 l T_IDENTIFIER T_PAREN_OPEN) as [[|]|]; [|inversion H; subst; exact HC|discriminate].
  destruct l as [|name [|paren last]]; try discriminate.
  assert (HREP : forall code lc, cok ts (with_st c (report code lc (n_st c)))).
  { intros code lc. apply st_cok; [assumption|apply HC]. }
  assert (HPP : forall fuel tt acc ps rest, proto_params fuel tt acc = Some (ps, rest) -> incl rest tt).
  { induction fuel as [|fu IH]; intros tt acc ps rest X; [discriminate|]. cbn [proto_params] in X.
    destruct (is_explicit_type tt) as [[|b after]|] eqn:EX.
    - inversion X; subst. intros y [].
    - apply explicit_type_spec in EX as (x & ty & EX & _). subst tt.
      assert (IA : incl (b :: after) (x :: ty ++ b :: after)) by (intros y Y; right; now apply suffix_incl).
      destruct (ttype_eqb (t_type b) T_COMMA).
      + apply IH in X. intros y Y. apply IA. right. now apply X.
      + inversion X; subst. exact IA.
    - inversion X; subst. apply incl_refl. }
  destruct (proto_params (S (length last)) last []) as [(ps, [|b after])|] eqn:EP; [|..].
  - inversion H; subst. apply HREP.
  - apply HPP in EP.
    assert (IB : incl (b :: after) ts).
    { intros y Y. apply IN. right. right. now apply EP. }
    assert (HACC : forall ret te, incl te ts -> accept_proto c name ext exp ps ret te = Ret c' r -> cok ts c').
    { intros ret te HI X. unfold accept_proto in X. destruct te as [|x r1]; [discriminate|]. inversion X; subst.
      apply push_cok; [assumption| |discriminate]. cbn [set_tok p_tok]. intros y Y. apply HI. now right. }
    unfold finish_proto in H.
    destruct (if ttype_eqb (t_type b) T_PAREN_CLOSE then is_potential_type after else None) as [[|e aft]|] eqn:EPT.
    + exfalso. destruct (ttype_eqb (t_type b) T_PAREN_CLOSE); [|discriminate].
      apply potential_type_spec in EPT as (ty & e & aft & _ & Q & _). discriminate.
    + destruct (ttype_eqb (t_type b) T_PAREN_CLOSE); [|discriminate].
      apply potential_type_spec in EPT as (ty & e' & aft' & E1 & Q & _). inversion Q; subst e' aft'.
      destruct (tok_is aft (if ext then T_NEWLINE else T_BRACKET_OPEN)); [|inversion H; subst; apply HREP].
      apply HACC in H; auto. subst after. intros y Y. apply IB. right. now apply suffix_incl.
    + destruct (ttype_eqb (t_type b) T_PAREN_CLOSE && _); [now apply HACC in H|].
      destruct (negb _); [inversion H; subst; apply HREP|].
      destruct (ext && _); inversion H; subst; [apply HREP|exact HC].
  - discriminate.
Qed.

Definition sub_ok (ts : list token) (sub : pst -> out pst (option (list node))) : Prop :=
  forall s s' tr, sub s = Ret s' tr -> incl (p_tok s) ts ->
    incl (p_tok s') ts /\ forall t, tr = Some t -> tall (exprs_shaped ts) t.

Lemma sub_tree_cok : forall ts sub c c' u, sub_ok ts sub -> cok ts c -> parse_ast_sub_tree_ sub c = Ret c' u -> cok ts c'.
Proof.
  intros ts sub c c' u HS HC H. unfold parse_ast_sub_tree_ in H. pose proof (proj1 HC) as I.
  destruct (p_tok (n_st c)) as [|t q] eqn:E; [discriminate|].
  set (G := let* (s0, _) := next_token (n_st c) in _) in *.
  assert (HG : G = Ret c' u -> cok ts c').
  { clear H. unfold G. clear G. intro H. apply obind_ret in H as (s0 & x & H0 & H).
    apply (next_cok ts) in H0; [|rewrite E; exact I].
    apply obind_ret in H as (s1 & ch & H1 & H). destruct (HS _ _ _ H1 H0) as (I1 & F1).
    destruct ch as [[|[ty tok te p ch] tree]|]; try (inversion H; subst; apply st_cok; now auto).
    destruct (p_err s1). { inversion H; subst. apply st_cok; auto. }
    destruct tok as [|tk tok].
    { destruct (p_tok {| p_tok := p_tok s1; p_err := p_err (n_st c); p_msgs := p_msgs s1 |}) as [|b r2] eqn:E2; [discriminate|].
      inversion H; subst. apply st_cok; auto. }
    apply obind_ret in H as (s3 & y & H3 & H). apply (next_cok ts) in H3; [|exact I1].
    destruct HC as (_ & HD & HP).
    destruct (n_done c) as [|[ty2 a2 b2 p2 ch2] d]; inversion H; subst.
    - split; [easy|]. split; [apply tall_nil|]. now apply F1.
    - split; [easy|]. split; [|exact HP]. cbn [n_done]. apply tall_inv in HD as (D1 & D2 & D3).
      apply tall_cons; [assumption|now apply F1|assumption]. }
  clearbody G.
  destruct (n_done c) as [|[ty2 a2 b2 p2 [|c2 ch2]] d]; try (now apply HG).
  inversion H; subst. apply st_cok; [assumption|apply HC].
Qed.

Lemma ast_node_cok : forall ts sub f indent c c' d, sub_ok ts sub -> cok ts c ->
  parse_ast_node sub f indent c = Ret c' d -> cok ts c'.
Proof.
  intros ts sub f indent c c' d HS HC H. unfold parse_ast_node in H.
  destruct (p_tok (n_st c)) as [|t r] eqn:E; [discriminate|].
  set (D := let* (c1, r1) := parse_function_proto c in _) in H.
  assert (HD : D = Ret c' d -> cok ts c').
  { clear H. unfold D. clear D. intro H. apply obind_ret in H as (c1 & r1 & H1 & H). apply (proto_cok ts) in H1; [|exact HC].
    apply obind_ret in H as (c2 & r2 & H2 & H).
    assert (C2 : cok ts c2). { destruct r1; try (inversion H2; subst; exact H1). now apply (var_def_cok ts) in H2. }
    apply obind_ret in H as (c3 & r3 & H3 & H).
    assert (C3 : cok ts c3). { destruct r2; try (inversion H3; subst; exact C2). now apply (assign_cok ts) in H3. }
    apply obind_ret in H as (c4 & r4 & H4 & H).
    assert (C4 : cok ts c4).
    { destruct r3; try (inversion H4; subst; exact C3). cbv zeta in H4. apply obind_ret in H4 as (s4 & e & H4 & H5).
      destruct (expr_cok ts _ _ _ _ H4 (proj1 C3)) as (I4 & S4). destruct e as [e|].
      - inversion H5; subst. apply push_cok; [assumption|assumption|]. intros a Q. inversion Q; subst. auto.
      - destruct (p_err s4); inversion H5; subst; apply st_cok; auto. }
    destruct r4; inversion H; subst; auto. }
  assert (HK : forall r1 : out nctx unit, (forall c1 u, r1 = Ret c1 u -> cok ts c1) ->
     (let* (c1, _) := r1 in Ret c1 false) = Ret c' d -> cok ts c').
  { intros r1 X Y. apply obind_ret in Y as (c1 & u & Y1 & Y2). inversion Y2; subst. now apply (X c' u). }
  assert (HN : (let* (s1, _) := next_token (n_st c) in Ret (with_st c s1) false) = Ret c' d -> cok ts c').
  { intro Y. apply obind_ret in Y as (s1 & u & Y1 & Y2). inversion Y2; subst. apply st_cok; [assumption|].
    apply (next_cok ts) in Y1; [assumption|apply HC]. }
  assert (H1 := fun c1 u => return_cok ts f c c1 u HC).
  assert (H2 := fun ty c1 u => condition_cok ts f ty c c1 u HC).
  assert (H3 := fun ty c1 u => simple_cok ts ty c c1 u HC).
  assert (H4 := fun c1 u => namespace_cok ts c c1 u HC).
  assert (H5 := fun c1 u => import_cok ts c c1 u HC).
  assert (H6 := fun c1 u => sub_tree_cok ts sub c c1 u HS HC).
  destruct (t_type t); try (now apply HD); try (now apply HN);
    try (revert H; apply HK; now auto);
    try (revert H; apply HK; intros c1 u; now apply H2);
    try (revert H; apply HK; intros c1 u; now apply H3).
  destruct indent; inversion H; subst; auto.
Qed.

Lemma tree_loop_cok : forall ts sub f indent c c' u, sub_ok ts sub -> cok ts c ->
  tree_loop sub f indent c = Ret c' u -> cok ts c'.
Proof.
  intros ts sub f. induction f as [|f IH]; intros indent c c' u HS HC H; [discriminate|]. cbn [tree_loop] in H.
  destruct (p_tok (n_st c)). { inversion H; subst. exact HC. }
  apply obind_ret in H as (c1 & d & H1 & H). apply (ast_node_cok ts) in H1; auto.
  destruct (d || p_err (n_st c1)); [inversion H; subst; exact H1|]. now apply (IH indent c1 c' u).
Qed.

Lemma tree_cok : forall ts f indent, sub_ok ts (parse_ast_tree_ f indent).
Proof.
  intros ts f. induction f as [|f IH]; intros indent s s' tr H HI; [discriminate|]. cbn [parse_ast_tree_] in H.
  apply obind_ret in H as (c & u & H1 & H). apply (tree_loop_cok ts) in H1; [|apply IH|].
  2:{ split; [exact HI|]. split; apply tall_nil. }
  destruct H1 as (I & D & P). destruct (p_err (n_st c)). { inversion H; subst. split; [easy|discriminate]. }
  assert (HT : tall (exprs_shaped ts) match n_done c with [] => [mknode N_UNKNOWN [] [] PNone (n_pend c)] | _ :: _ => rev (n_done c) end).
  { destruct (n_done c) as [|n d] eqn:ED.
    - apply tall_cons; [intros e Q; discriminate|exact P|apply tall_nil].
    - now apply tall_rev. }
  destruct (p_tok (n_st c)) as [|t r] eqn:E.
  - destruct indent; inversion H; subst.
    + rewrite E. split; [intros x []|]. intros t Q. inversion Q; subst. exact HT.
    + cbn [fail report set_err p_tok]. rewrite E. split; [intros x []|discriminate].
  - inversion H; subst. rewrite E. split; [exact I|]. intros t0 Q. inversion Q; subst. exact HT.
Qed.

Lemma parse_shaped : forall ts ms tree, parse_ast_tree ts = Ret ms (Some tree) -> tall (exprs_shaped ts) tree.
Proof.
  intros ts ms tree H. unfold parse_ast_tree in H. apply obind_ret in H as (s & tr & H1 & H).
  destruct (tree_cok ts _ _ _ _ _ H1 (incl_refl ts)) as (_ & F).
  destruct (p_err s); [discriminate|]. destruct tr as [tr|]; [|discriminate]. cbn [option_map] in H.
  inversion H; subst. specialize (F _ eq_refl).
  destruct tr as [|[ty [|tk tok] te p ch] tr]; cbn [set_head_token]; auto.
  apply tall_inv in F as (F1 & F2 & F3). now apply tall_cons.
Qed.
