From Coq Require Import List Arith NArith Bool Lia.
From Verif Require Import Base Model_Token Model_Parse Spec_Parse Spec_Grammar Proof_Parse Proof_Parse4.
Import ListNotations.
Open Scope list_scope.

Scheme stmt_at_m := Minimality for stmt_at Sort Prop
  with block_at_m := Minimality for block_at Sort Prop
  with stmts_at_m := Minimality for stmts_at Sort Prop.
Combined Scheme at_ind from stmt_at_m, block_at_m, stmts_at_m.

Definition at_ (ts : list token) (ms : list message) (d : list node) : nctx := mknctx (mkpst ts false ms) d [].

Lemma expr_runs : forall ts c rest F ms, expr_at ts c rest -> stops rest -> (length ts < F)%nat ->
  exists e, parse_expression F (mkpst ts false ms) = Ret (mkpst rest false ms) (Some e) /\ says e c.
Proof.
  intros ts c rest F ms (used & -> & P & U) ST L. destruct (expression_runs F c used rest ms P U ST L) as (e & E & G). exists e. split; [exact E|].
  split; [|exact G]. exists used. split; [exact P|]. destruct (expression_read F _ ms _ e L E) as (us & T & _ & Y & _). cbn [p_tok] in T.
  apply app_inv_tail in T. now subst us.
Qed.

Lemma line_end_stops : forall r, line_end r -> stops r.
Proof.
  intros [|t r] H; [exact I|]. cbn in H |- *. destruct H as [H|[H|[H|[]]]]; rewrite <- H; split; try reflexivity; discriminate.
Qed.
Lemma bare_end_stops : forall r, bare_end r -> stops r.
Proof. intros [|t r] H; [exact I|]. cbn in H |- *. rewrite H; split; [reflexivity|discriminate]. Qed.
Lemma block_stops : forall r b r2, block_at r b r2 -> stops r.
Proof. intros r b r2 H. inversion H; subst; cbn; match goal with X : t_type _ = _ |- _ => rewrite X end; split; try reflexivity; discriminate. Qed.
Lemma expr_at_suffix : forall ts c r, expr_at ts c r -> exists a t, ts = t :: a ++ r.
Proof. intros ts c r (used & -> & P & _). apply prints_ne in P. destruct used as [|t a]; [easy|]. exists a, t. reflexivity. Qed.
Lemma expr_at_shorter : forall ts c r, expr_at ts c r -> (length r < length ts)%nat.
Proof. intros ts c r H. apply expr_at_suffix in H as (a & t & ->). cbn. rewrite app_length. lia. Qed.

Lemma step : forall sub F i ts ms d r d', ts <> [] -> (length ts < F)%nat ->
  parse_ast_node sub F i (at_ ts ms d) = Ret (at_ r ms d') false ->
  tree_loop sub F i (at_ ts ms d) = tree_loop sub (pred F) i (at_ r ms d').
Proof.
  intros sub F i ts ms d r d' NE L E. destruct F as [|F]; [lia|]. cbn [pred].
  exact (tree_loop_step sub F i (at_ ts ms d) (mkpst r false ms) d' [] NE E).
Qed.

Lemma newline_node : forall sub F i t r ms d, t_type t = T_NEWLINE -> parse_ast_node sub F i (at_ (t :: r) ms d) = Ret (at_ r ms d) false.
Proof. intros sub F i t r ms d T. unfold parse_ast_node. cbn [n_st at_ p_tok]. rewrite T. reflexivity. Qed.

(** * Statements without blocks, and the heads of statements with blocks *)

Definition plain_head (n : node) : Prop := n_child n = [] /\ n_token n <> [].
Definition node_gives (ts r : list token) (Q : node -> Prop) : Prop := forall sub F i ms d, (length ts < F)%nat ->
  exists n, Q n /\ plain_head n /\ parse_ast_node sub F i (at_ ts ms d) = Ret (at_ r ms (n :: d)) false.

Lemma word_gives : forall t r ty, keyword ty (t_type t) -> In ty [N_UNREACHABLE; N_COMMENT; N_NOOP; N_BREAK; N_CONTINUE] ->
  node_gives (t :: r) r (fun n => n_type n = ty /\ n_pay n = PNone).
Proof.
  intros t r ty K I sub F i ms d L. exists (mknode ty (t :: r) (t :: r) PNone []). split; [split; reflexivity|]. split; [split; [reflexivity|discriminate]|].
  unfold keyword in K. cbn [In] in I. unfold parse_ast_node. cbn [n_st at_ p_tok].
  repeat (destruct I as [<-|I]; [cbn [In] in K; repeat (destruct K as [K|K]; [inversion K as [T]; try discriminate; rewrite <- ?T; try (rewrite T); reflexivity|]); easy|]).
  destruct I.
Qed.
Lemma else_gives : forall t r, t_type t = T_KW_ELSE -> node_gives (t :: r) r (fun n => n_type n = N_ELSE /\ n_pay n = PNone).
Proof.
  intros t r T sub F i ms d L. exists (mknode N_ELSE (t :: r) (t :: r) PNone []). split; [split; reflexivity|]. split; [split; [reflexivity|discriminate]|].
  unfold parse_ast_node. cbn [n_st at_ p_tok]. rewrite T. reflexivity.
Qed.
Lemma space_gives : forall t x r, t_type t = T_KW_NAMESPACE ->
  node_gives (t :: x :: r) r (fun n => n_type n = N_NAMESPACE /\ n_token n = t :: x :: r /\ n_pay n = PNone).
Proof.
  intros t x r T sub F i ms d L. exists (mknode N_NAMESPACE (t :: x :: r) r PNone []). split; [repeat split|]. split; [split; [reflexivity|discriminate]|].
  unfold parse_ast_node. cbn [n_st at_ p_tok]. rewrite T. reflexivity.
Qed.
Lemma import_gives : forall t x r, t_type t = T_KW_IMPORT -> t_type x = T_IDENTIFIER ->
  node_gives (t :: x :: r) r (fun n => n_type n = N_IMPORT /\ n_token n = t :: x :: r /\ n_pay n = PNone).
Proof.
  intros t x r T X sub F i ms d L. exists (mknode N_IMPORT (t :: x :: r) (t :: x :: r) PNone []). split; [repeat split|]. split; [split; [reflexivity|discriminate]|].
  unfold parse_ast_node. cbn [n_st at_ p_tok]. rewrite T. unfold parse_import. cbn [n_st at_ p_tok]. rewrite X. reflexivity.
Qed.

Lemma no_expression : forall r F ms, line_end r -> (0 < F)%nat -> parse_expression F (mkpst r false ms) = Ret (mkpst r false ms) None.
Proof.
  intros r [|F] ms H L; [lia|]. destruct r as [|t r]; [reflexivity|]. cbn [parse_expression p_tok]. unfold parse_single_expr, parse_root_expr. cbn [p_tok].
  unfold is_identifier_like. cbn in H. destruct H as [H|[H|[H|[]]]]; rewrite <- H; reflexivity.
Qed.
Lemma return_node : forall t r, t_type t = T_KW_RETURN -> line_end r -> node_gives (t :: r) r (fun n => n_type n = N_RETURN /\ n_pay n = PNone).
Proof.
  intros t r T LE sub F i ms d L. exists (mknode N_RETURN (t :: r) (t :: r) PNone []). split; [repeat split|]. split; [split; [reflexivity|discriminate]|].
  unfold parse_ast_node. cbn [n_st at_ p_tok]. rewrite T. unfold parse_return, next_token. cbn [n_st at_ p_tok obind]. unfold set_tok. cbn [p_err p_msgs].
  rewrite (no_expression r F ms LE) by lia. reflexivity.
Qed.
Lemma result_gives : forall t r c r', t_type t = T_KW_RETURN -> expr_at r c r' -> line_end r' ->
  node_gives (t :: r) r' (fun n => n_type n = N_RETURN /\ exists e, n_pay n = PExpr e /\ says e c).
Proof.
  intros t r c r' T EX LE sub F i ms d L. cbn [length] in L. destruct (expr_runs r c r' F ms EX (line_end_stops _ LE)) as (e & E & SY); [lia|].
  exists (mknode N_RETURN (t :: r) (t :: r) (PExpr e) []). split; [split; [reflexivity|exists e; split; [reflexivity|exact SY]]|]. split; [split; [reflexivity|discriminate]|].
  unfold parse_ast_node. cbn [n_st at_ p_tok]. rewrite T. unfold parse_return, next_token. cbn [n_st at_ p_tok obind]. unfold set_tok. cbn [p_err p_msgs].
  rewrite E. reflexivity.
Qed.
Lemma if_gives : forall t r ty c r', keyword ty (t_type t) -> In ty [N_IF; N_ELIF; N_WHILE] -> expr_at r c r' -> stops r' ->
  node_gives (t :: r) r' (fun n => n_type n = ty /\ exists e, n_pay n = PExpr e /\ says e c).
Proof.
  intros t r ty c r' K I EX ST sub F i ms d L. cbn [length] in L. destruct (expr_runs r c r' F ms EX ST) as (e & E & SY); [lia|].
  exists (mknode ty (t :: r) (t :: r) (PExpr e) []). split; [split; [reflexivity|exists e; split; [reflexivity|exact SY]]|]. split; [split; [reflexivity|discriminate]|].
  apply expr_at_suffix in EX as (a & x & EX).
  assert (C : forall y, parse_condition F y (at_ (t :: r) ms d) = Ret (at_ r' ms (mknode y (t :: r) (t :: r) (PExpr e) [] :: d)) tt).
  { intro y. unfold parse_condition. cbn [n_st at_ p_tok]. rewrite EX at 1. unfold next_token. cbn [n_st at_ p_tok obind]. unfold set_tok. cbn [p_err p_msgs].
    rewrite E. reflexivity. }
  assert (X : ty = N_IF /\ t_type t = T_KW_IF \/ ty = N_ELIF /\ t_type t = T_KW_ELIF \/ ty = N_WHILE /\ t_type t = T_KW_WHILE).
  { clear - K I. unfold keyword in K. cbn [In] in I, K.
    repeat (destruct K as [K|K]; [inversion K; subst ty; repeat (destruct I as [I|I]; [try discriminate I; auto|]); try destruct I; auto|]). destruct K. }
  unfold parse_ast_node. cbn [n_st p_tok at_]. fold (at_ (t :: r) ms d).
  destruct X as [(-> & T)|[(-> & T)|(-> & T)]]; rewrite T; rewrite C; reflexivity.
Qed.

(** Statements that begin with a name or a modifier. *)
Definition chain (F : nat) (c : nctx) : out nctx bool :=
  let* (c1, r1) := parse_function_proto c in
  let* (c2, r2) := match r1 with RESULT_IGNORE => parse_var_def F c1 | _ => Ret c1 r1 end in
  let* (c3, r3) := match r2 with RESULT_IGNORE => parse_var_assign F c2 | _ => Ret c2 r2 end in
  let* (c4, r4) :=
    match r3 with
    | RESULT_IGNORE =>
        let last := p_tok (n_st c3) in
        let* (s4, e) := parse_expression F (n_st c3) in
        match e with
        | Some e => Ret (push_ast_node c3 s4 last (p_tok s4) N_EXPR (PExpr e)) RESULT_IGNORE
        | None =>
            if p_err s4 then Ret (with_st c3 s4) RESULT_ERROR
            else Ret (with_st c3 (report (P_UNEXPECTED_TOKEN (hd_error (p_tok s4))) (option_map t_loc (hd_error (p_tok s4))) s4)) RESULT_ERROR
        end
    | _ => Ret c3 r3
    end in
  match r4 with RESULT_ERROR => Ret (with_st c4 (set_err (n_st c4))) false | _ => Ret c4 false end.
Definition opener (ty : ttype) : Prop := In ty [T_IDENTIFIER; T_DOT_IDENTIFIER; T_NEW_IDENTIFIER; T_KW_MUT; T_KW_EXPORT; T_KW_EXTERNAL].
Lemma node_chain : forall sub F i t r ms d, opener (t_type t) -> parse_ast_node sub F i (at_ (t :: r) ms d) = chain F (at_ (t :: r) ms d).
Proof.
  intros sub F i t r ms d O. unfold parse_ast_node. cbn [n_st p_tok at_]. fold (at_ (t :: r) ms d).
  destruct O as [O|[O|[O|[O|[O|[O|[]]]]]]]; rewrite <- O; reflexivity.
Qed.

Lemma eqb_ttype : forall a b, ttype_eqb a b = true <-> a = b.
Proof.
  intros a b. split; [|intros ->; unfold ttype_eqb; apply N.eqb_refl]. unfold ttype_eqb. intro H. apply N.eqb_eq in H.
  destruct a; destruct b; cbn in H; congruence.
Qed.
Lemma neqb_ttype : forall a b, a <> b -> ttype_eqb a b = false.
Proof. intros a b H. destruct (ttype_eqb a b) eqn:E; [apply eqb_ttype in E; contradiction|reflexivity]. Qed.

(** A function head is looked for first, and not found. *)
Lemma no_proto : forall c t q r, p_tok (n_st c) = t :: q :: r ->
  (t_type t <> T_KW_EXTERNAL) -> (t_type t = T_KW_EXPORT -> forall a, hd_error r = Some a -> t_type q = T_IDENTIFIER -> t_type a <> T_PAREN_OPEN) ->
  (t_type t = T_IDENTIFIER -> t_type q <> T_PAREN_OPEN) ->
  parse_function_proto c = Ret c RESULT_IGNORE.
Proof.
  intros c t q r E N1 N2 N3. unfold parse_function_proto. rewrite E. rewrite (neqb_ttype _ _ N1). cbn [orb].
  destruct (ttype_eqb (t_type t) T_KW_EXPORT) eqn:X.
  - apply eqb_ttype in X. unfold token_cmp2. destruct (negb (ttype_eqb (t_type q) T_UNKNOWN) && ttype_eqb (t_type q) T_IDENTIFIER) eqn:Q; [|reflexivity].
    apply andb_true_iff in Q as (_ & Q). apply eqb_ttype in Q. cbn [andb]. destruct r as [|a r]; [reflexivity|]. cbn [tok_is].
    rewrite (neqb_ttype _ _ (N2 X a eq_refl Q)). reflexivity.
  - unfold token_cmp2. destruct (negb (ttype_eqb (t_type t) T_UNKNOWN) && ttype_eqb (t_type t) T_IDENTIFIER) eqn:Q; [|reflexivity].
    apply andb_true_iff in Q as (_ & Q). apply eqb_ttype in Q. cbn [andb tok_is]. rewrite (neqb_ttype _ _ (N3 Q)). reflexivity.
Qed.

Lemma type_found : forall ty r, bare_type ty -> exists a l, ty = a ++ [l] /\ is_potential_type (ty ++ r) = Some (l :: r) /\ name_like (t_type l).
Proof.
  intros ty r H. induction H as [t H|t s T H IH].
  - exists [], t. split; [reflexivity|]. split; [|exact H]. cbn [app is_potential_type]. unfold is_identifier_like. destruct H as [-> | ->]; reflexivity.
  - destruct IH as (a & l & E & P & NL). exists (t :: a), l. split; [now rewrite E|]. split; [|exact NL].
    cbn [app is_potential_type]. unfold is_identifier_like. rewrite T. exact P.
Qed.
Lemma explicit_found : forall x ty r, t_type x = T_NEW_IDENTIFIER -> bare_type ty -> is_explicit_type (x :: ty ++ r) = Some r.
Proof.
  intros x ty r X B. unfold is_explicit_type. assert (NE : exists a b, ty = a :: b) by (inversion B; subst; eauto).
  destruct (type_found ty r B) as (a0 & l & _ & P & _). destruct NE as (a & b & ->). cbn [app] in *. rewrite X. cbn [ttype_eqb]. now rewrite P.
Qed.

Lemma def_gives : forall mods m e x q r c r', modified mods m e -> t_type x = T_IDENTIFIER -> t_type q = T_OPER_AUTO_EQUAL ->
  expr_at r c r' -> bare_end r' ->
  node_gives (mods ++ x :: q :: r) r' (fun n => n_type n = N_VAR_DEF /\ exists rest ex, n_pay n = PVarDef (x :: rest) ex true (negb m) e /\ says ex c).
Proof.
  intros mods m e x q r c r' M X Q EX BE sub F i ms d L.
  destruct (expr_runs r c r' F ms EX (bare_end_stops _ BE)) as (ex & E & SY); [rewrite app_length in L; cbn in L; lia|].
  exists (mknode N_VAR_DEF (mods ++ x :: q :: r) (q :: r) (PVarDef (x :: q :: r) ex true (negb m) e) []).
  split; [split; [reflexivity|exists (q :: r), ex; split; [reflexivity|exact SY]]|]. split; [split; [reflexivity|destruct mods; discriminate]|].
  assert (FV : forall cc, n_st cc = mkpst (mods ++ x :: q :: r) false ms -> finish_var_def F cc (x :: q :: r) true (negb m) e (q :: r) =
    Ret (push_ast_node cc (mkpst r' false ms) (mods ++ x :: q :: r) (q :: r) N_VAR_DEF (PVarDef (x :: q :: r) ex true (negb m) e)) RESULT_OK).
  { intros cc EC. unfold finish_var_def. rewrite EC. unfold set_tok. cbn [p_err p_msgs p_tok]. rewrite E. cbn [obind p_err p_tok].
    destruct r' as [|b r']; [reflexivity|]. cbn in BE. rewrite BE. reflexivity. }
  assert (NM : mods = [] /\ m = false /\ e = false \/ exists t, mods = [t] /\ (t_type t = T_KW_MUT /\ m = true /\ e = false \/ t_type t = T_KW_EXPORT /\ m = false /\ e = true)).
  { destruct m, e; cbn in M; [destruct M|destruct M as (t & -> & T); right; exists t; tauto|destruct M as (t & -> & T); right; exists t; tauto|left; auto]. }
  assert (HD : exists t0 r0, mods ++ x :: q :: r = t0 :: r0 /\ opener (t_type t0)).
  { destruct NM as [(-> & _)|(t & -> & [(T & _)|(T & _)])]; cbn [app]; eexists _, _; (split; [reflexivity|]); unfold opener; rewrite ?T, ?X; cbn; tauto. }
  destruct HD as (t0 & r0 & HD & OP). rewrite HD at 1. rewrite node_chain by exact OP. rewrite <- HD. unfold chain.
  assert (NP : parse_function_proto (at_ (mods ++ x :: q :: r) ms d) = Ret (at_ (mods ++ x :: q :: r) ms d) RESULT_IGNORE).
  { destruct NM as [(-> & _)|(t & -> & NM)]; cbn [app].
    - apply (no_proto (at_ (x :: q :: r) ms d) x q r eq_refl); [rewrite X; discriminate|rewrite X; discriminate|rewrite Q; discriminate].
    - apply (no_proto (at_ (t :: x :: q :: r) ms d) t x (q :: r) eq_refl).
      + destruct NM as [(-> & _)|(-> & _)]; discriminate.
      + intros _ a [= <-] _. rewrite Q. discriminate.
      + destruct NM as [(-> & _)|(-> & _)]; discriminate. }
  rewrite NP. cbn [obind].
  assert (VD : parse_var_def F (at_ (mods ++ x :: q :: r) ms d) = finish_var_def F (at_ (mods ++ x :: q :: r) ms d) (x :: q :: r) true (negb m) e (q :: r)).
  { assert (NX : is_explicit_type (x :: q :: r) = None) by (unfold is_explicit_type; rewrite X; reflexivity).
    assert (CM : token_cmp2 (x :: q :: r) T_IDENTIFIER T_OPER_AUTO_EQUAL = Ok true) by (unfold token_cmp2; cbn [tok_is]; rewrite X, Q; reflexivity).
    unfold parse_var_def. cbn [n_st p_tok at_]. fold (at_ (mods ++ x :: q :: r) ms d).
    destruct NM as [(-> & -> & ->)|(t & -> & [(T & -> & ->)|(T & -> & ->)])]; cbn [app]; [rewrite X|rewrite T|rewrite T]; cbn [ttype_eqb orb andb negb];
      change (ttype_eqb T_IDENTIFIER T_KW_MUT) with false; change (ttype_eqb T_IDENTIFIER T_KW_EXPORT) with false; change (ttype_eqb T_KW_MUT T_KW_MUT) with true;
      change (ttype_eqb T_KW_EXPORT T_KW_MUT) with false; change (ttype_eqb T_KW_EXPORT T_KW_EXPORT) with true; cbn [orb andb negb]; rewrite NX, CM; reflexivity. }
  rewrite VD, FV by reflexivity. cbn [obind]. reflexivity.
Qed.

Lemma declare_gives : forall mods m e x ty q r c r', modified mods m e -> t_type x = T_NEW_IDENTIFIER -> bare_type ty -> t_type q = T_OPER_EQUAL ->
  expr_at r c r' -> bare_end r' ->
  node_gives (mods ++ x :: ty ++ q :: r) r'
    (fun n => n_type n = N_VAR_DEF /\ exists rest ex, n_pay n = PVarDef (x :: ty ++ rest) ex false (negb m) e /\ says ex c).
Proof.
  intros mods m e x ty q r c r' M X B Q EX BE sub F i ms d L.
  destruct (expr_runs r c r' F ms EX (bare_end_stops _ BE)) as (ex & E & SY); [rewrite !app_length in L; cbn in L; rewrite app_length in L; cbn in L; lia|].
  set (all := x :: ty ++ q :: r) in *.
  exists (mknode N_VAR_DEF (mods ++ all) (q :: r) (PVarDef all ex false (negb m) e) []).
  split; [split; [reflexivity|exists (q :: r), ex; split; [reflexivity|exact SY]]|]. split; [split; [reflexivity|destruct mods; discriminate]|].
  assert (FV : forall cc, n_st cc = mkpst (mods ++ all) false ms -> finish_var_def F cc all false (negb m) e (q :: r) =
    Ret (push_ast_node cc (mkpst r' false ms) (mods ++ all) (q :: r) N_VAR_DEF (PVarDef all ex false (negb m) e)) RESULT_OK).
  { intros cc EC. unfold finish_var_def. rewrite EC. unfold set_tok. cbn [p_err p_msgs p_tok]. rewrite E. cbn [obind p_err p_tok].
    destruct r' as [|b r']; [reflexivity|]. cbn in BE. rewrite BE. reflexivity. }
  assert (NM : mods = [] /\ m = false /\ e = false \/ exists t, mods = [t] /\ (t_type t = T_KW_MUT /\ m = true /\ e = false \/ t_type t = T_KW_EXPORT /\ m = false /\ e = true)).
  { destruct m, e; cbn in M; [destruct M|destruct M as (t & -> & T); right; exists t; tauto|destruct M as (t & -> & T); right; exists t; tauto|left; auto]. }
  assert (HD : exists t0 r0, mods ++ all = t0 :: r0 /\ opener (t_type t0)).
  { destruct NM as [(-> & _)|(t & -> & [(T & _)|(T & _)])]; cbn [app]; eexists _, _; (split; [reflexivity|]); unfold opener; rewrite ?T, ?X; cbn; tauto. }
  destruct HD as (t0 & r0 & HD & OP). rewrite HD at 1. rewrite node_chain by exact OP. rewrite <- HD. unfold chain.
  assert (TY : exists y1 y2, ty ++ q :: r = y1 :: y2) by (destruct ty; cbn; eauto). destruct TY as (y1 & y2 & TY).
  assert (NP : parse_function_proto (at_ (mods ++ all) ms d) = Ret (at_ (mods ++ all) ms d) RESULT_IGNORE).
  { destruct NM as [(-> & _)|(t & -> & NM)]; cbn [app]; unfold all; rewrite TY.
    - apply (no_proto (at_ (x :: y1 :: y2) ms d) x y1 y2 eq_refl); rewrite X; discriminate.
    - apply (no_proto (at_ (t :: x :: y1 :: y2) ms d) t x (y1 :: y2) eq_refl).
      + destruct NM as [(-> & _)|(-> & _)]; discriminate.
      + intros _ a _ I. rewrite X in I. discriminate.
      + destruct NM as [(-> & _)|(-> & _)]; discriminate. }
  rewrite NP. cbn [obind].
  assert (VD : parse_var_def F (at_ (mods ++ all) ms d) = finish_var_def F (at_ (mods ++ all) ms d) all false (negb m) e (q :: r)).
  { assert (NX : is_explicit_type all = Some (q :: r)) by (apply explicit_found; assumption).
    unfold parse_var_def. cbn [n_st p_tok at_]. fold (at_ (mods ++ all) ms d).
    destruct NM as [(-> & -> & ->)|(t & -> & [(T & -> & ->)|(T & -> & ->)])]; cbn [app]; [unfold all at 1; rewrite X|rewrite T|rewrite T];
      change (ttype_eqb T_NEW_IDENTIFIER T_KW_MUT) with false; change (ttype_eqb T_NEW_IDENTIFIER T_KW_EXPORT) with false; change (ttype_eqb T_KW_MUT T_KW_MUT) with true;
      change (ttype_eqb T_KW_EXPORT T_KW_MUT) with false; change (ttype_eqb T_KW_EXPORT T_KW_EXPORT) with true; cbn [orb andb negb]; rewrite NX; reflexivity. }
  rewrite VD, FV by reflexivity. cbn [obind]. reflexivity.
Qed.

Lemma no_def : forall F c t q r, p_tok (n_st c) = t :: q :: r -> name_like (t_type t) -> t_type q <> T_OPER_AUTO_EQUAL ->
  parse_var_def F c = Ret c RESULT_IGNORE.
Proof.
  intros F c t q r E NL Q. unfold parse_var_def. rewrite E.
  assert (X : ttype_eqb (t_type t) T_KW_MUT = false) by (destruct NL as [-> | ->]; reflexivity).
  assert (Y : ttype_eqb (t_type t) T_KW_EXPORT = false) by (destruct NL as [-> | ->]; reflexivity).
  assert (Z : is_explicit_type (t :: q :: r) = None) by (unfold is_explicit_type; destruct NL as [-> | ->]; reflexivity).
  rewrite X, Y. cbn [orb andb negb]. rewrite Z. unfold token_cmp2. cbn [tok_is]. rewrite (neqb_ttype _ _ Q), andb_false_r. reflexivity.
Qed.
Lemma like_true : forall t, name_like (t_type t) -> is_identifier_like t = true.
Proof. intros t [H|H]; unfold is_identifier_like; rewrite H; reflexivity. Qed.
Lemma like_opener : forall t, name_like (t_type t) -> opener (t_type t).
Proof. intros t [H|H]; rewrite H; unfold opener; cbn; tauto. Qed.

Lemma assign_gives : forall x q r c r', name_like (t_type x) -> t_type q = T_OPER_EQUAL -> expr_at r c r' -> line_end r' ->
  node_gives (x :: q :: r) r' (fun n => n_type n = N_VAR_ASSIGN /\ n_token n = x :: q :: r /\ exists e, n_pay n = PAssign e /\ says e c).
Proof.
  intros x q r c r' X Q EX LE sub F i ms d L. cbn [length] in L.
  destruct (expr_runs r c r' F ms EX (line_end_stops _ LE)) as (e & E & SY); [lia|].
  exists (mknode N_VAR_ASSIGN (x :: q :: r) (q :: r) (PAssign e) []).
  split; [split; [reflexivity|split; [reflexivity|exists e; split; [reflexivity|exact SY]]]|]. split; [split; [reflexivity|discriminate]|].
  rewrite node_chain by (now apply like_opener). unfold chain.
  rewrite (no_proto (at_ (x :: q :: r) ms d) x q r eq_refl); [|destruct X as [-> | ->]; discriminate|destruct X as [-> | ->]; discriminate|rewrite Q; discriminate].
  cbn [obind]. rewrite (no_def F (at_ (x :: q :: r) ms d) x q r eq_refl X) by (rewrite Q; discriminate). cbn [obind].
  unfold parse_var_assign. cbn [n_st p_tok at_]. fold (at_ (x :: q :: r) ms d). rewrite (like_true _ X). cbn [tok_is]. rewrite Q. cbn [ttype_eqb andb].
  change (ttype_eqb T_OPER_EQUAL T_OPER_EQUAL) with true. cbn [andb]. unfold next_token, set_tok. cbn [p_tok obind p_err p_msgs]. rewrite E. reflexivity.
Qed.

Lemma prints_first : forall c ts, prints c ts -> exists t r, ts = t :: r /\ t_type t <> T_NEW_IDENTIFIER /\ t_type t <> T_PAREN_CLOSE.
Proof.
  intros c ts H. induction H.
  - exists t, []. unfold operand_type in H. cbn in H. split; [easy|].
    split; intro X; rewrite X in H; repeat (destruct H as [H|H]; [discriminate|]); easy.
  - exists t, (po :: ts ++ [pc]). split; [easy|]. destruct H as [H|H]; rewrite H; split; discriminate.
  - exists po, (ts ++ [pc]). split; [easy|]. rewrite H. split; discriminate.
  - exists t, ts. split; [easy|]. rewrite H. destruct o; split; discriminate.
  - destruct IHprints1 as (x & r1 & -> & X). exists x, (r1 ++ t :: rts). auto.
Qed.
Lemma args_first : forall args ts, prints_args args ts -> ts = [] \/ exists t r, ts = t :: r /\ t_type t <> T_NEW_IDENTIFIER /\ t_type t <> T_PAREN_CLOSE.
Proof.
  intros args ts H. destruct H as [|c ts H|c d cs ts t us H]; [now left|right; now apply prints_first in H|].
  right. destruct (prints_first _ _ H) as (x & r1 & -> & X). exists x, (r1 ++ t :: us). auto.
Qed.

Lemma call_gives : forall ts f args r', expr_at ts (CCall f args) r' -> line_end r' ->
  node_gives ts r' (fun n => n_type n = N_EXPR /\ exists e, n_pay n = PExpr e /\ says e (CCall f args)).
Proof.
  intros ts f args r' EX LE sub F i ms d L.
  destruct (expr_runs ts (CCall f args) r' F ms EX (line_end_stops _ LE) L) as (e & E & SY).
  exists (mknode N_EXPR ts r' (PExpr e) []). split; [split; [reflexivity|exists e; split; [reflexivity|exact SY]]|].
  destruct EX as (used & -> & P & U). inversion P as [|t po pc a us NL PO PC PA X1 X2| | |]; subst t a used. clear P.
  cbn [app] in *. rewrite <- app_assoc in *. cbn [app] in *. split; [split; [reflexivity|discriminate]|].
  rewrite node_chain by (now apply like_opener). set (all := f :: po :: us ++ pc :: r') in *. unfold chain.
  assert (NP : parse_function_proto (at_ all ms d) = Ret (at_ all ms d) RESULT_IGNORE).
  { unfold parse_function_proto. cbn [n_st p_tok at_]. fold (at_ all ms d). unfold all.
    assert (X : ttype_eqb (t_type f) T_KW_EXTERNAL = false) by (destruct NL as [-> | ->]; reflexivity).
    assert (Y : ttype_eqb (t_type f) T_KW_EXPORT = false) by (destruct NL as [-> | ->]; reflexivity).
    rewrite X, Y. cbn [orb]. unfold token_cmp2. cbn [tok_is]. rewrite PO. change (ttype_eqb T_PAREN_OPEN T_PAREN_OPEN) with true. rewrite andb_true_r.
    destruct (negb (ttype_eqb (t_type f) T_UNKNOWN) && ttype_eqb (t_type f) T_IDENTIFIER); [|reflexivity].
    destruct (args_first _ _ PA) as [-> | (t & r & -> & T1 & T2)]; cbn [app].
    - cbn [length proto_params]. unfold is_explicit_type. rewrite PC.
      replace (match r' with [] => None | _ :: _ => if ttype_eqb T_PAREN_CLOSE T_NEW_IDENTIFIER then match is_potential_type r' with Some (_ :: after) => Some after | _ => None end else None end)
        with (@None (list token)) by (destruct r'; reflexivity).
      cbn [rev]. unfold finish_proto. cbn [length]. rewrite PC. change (ttype_eqb T_PAREN_CLOSE T_PAREN_CLOSE) with true. cbv iota.
      assert (IP : is_potential_type r' = None).
      { destruct r' as [|b r']; [reflexivity|]. cbn in LE |- *. unfold is_identifier_like. destruct LE as [H|[H|[H|[]]]]; rewrite <- H; reflexivity. }
      assert (TB : tok_is r' T_BRACKET_OPEN = false).
      { destruct r' as [|b r']; [reflexivity|]. cbn in LE |- *. destruct LE as [H|[H|[H|[]]]]; rewrite <- H; reflexivity. }
      rewrite IP, TB, Nat.eqb_refl. reflexivity.
    - cbn [length proto_params]. unfold is_explicit_type. rewrite (neqb_ttype _ _ T1).
      assert (NN : exists z zs, r ++ pc :: r' = z :: zs) by (destruct r; cbn; eauto). destruct NN as (z & zs & NN). rewrite NN.
      cbn [rev]. unfold finish_proto. cbn [length]. rewrite (neqb_ttype _ _ T2), Nat.eqb_refl. reflexivity. }
  rewrite NP. cbn [obind]. rewrite (no_def F (at_ all ms d) f po (us ++ pc :: r') eq_refl NL) by (rewrite PO; discriminate). cbn [obind].
  assert (NA : parse_var_assign F (at_ all ms d) = Ret (at_ all ms d) RESULT_IGNORE).
  { unfold parse_var_assign. cbn [n_st p_tok at_]. fold (at_ all ms d). unfold all at 1. cbn [tok_is]. rewrite PO, (like_true _ NL). reflexivity. }
  rewrite NA. cbn [obind n_st at_ p_tok]. rewrite E. reflexivity.
Qed.

(** Function heads. *)
Lemma params_run : forall ts ps r, params_at ts ps r -> forall F acc, (length ts < F)%nat ->
  exists ps' pc, proto_params F ts acc = Some (rev acc ++ ps', pc :: r) /\ t_type pc = T_PAREN_CLOSE /\ Forall2 param_says ps' ps /\
    (ts = pc :: r /\ ps = [] \/ (length (pc :: r) < length ts)%nat).
Proof.
  intros ts ps r H. induction H as [pc r PC|x ty pc r X B PC|x ty comma more p ps r X B C H IH]; intros F acc L; (destruct F as [|F]; [lia|]); cbn [proto_params].
  - exists [], pc. unfold is_explicit_type. rewrite PC.
    replace (match r with [] => None | _ :: _ => if ttype_eqb T_PAREN_CLOSE T_NEW_IDENTIFIER then match is_potential_type r with Some (_ :: after) => Some after | _ => None end else None end)
      with (@None (list token)) by (destruct r; reflexivity).
    rewrite app_nil_r. repeat split; auto.
  - rewrite (explicit_found x ty (pc :: r) X B). rewrite PC. change (ttype_eqb T_PAREN_CLOSE T_COMMA) with false. cbv iota.
    exists [mkparam (ty ++ pc :: r) x], pc. split; [cbn [rev]; reflexivity|]. split; [exact PC|]. split.
    + constructor; [|constructor]. split; [reflexivity|]. exists (pc :: r). reflexivity.
    + right. cbn [length]. rewrite app_length. cbn [length]. lia.
  - rewrite (explicit_found x ty (comma :: more) X B). rewrite C. change (ttype_eqb T_COMMA T_COMMA) with true. cbv iota.
    destruct (IH F (mkparam (ty ++ comma :: more) x :: acc)) as (ps' & pc & E & PC & FP & LT).
    { cbn [length] in L. rewrite app_length in L. cbn [length] in L. lia. }
    exists (mkparam (ty ++ comma :: more) x :: ps'), pc. split; [rewrite E; cbn [rev]; now rewrite <- app_assoc|]. split; [exact PC|]. split.
    + constructor; [|exact FP]. split; [reflexivity|]. exists (comma :: more). reflexivity.
    + right. cbn [length]. rewrite app_length. destruct LT as [(-> & _)|LT]; cbn [length] in *; lia.
Qed.

Lemma head_gives : forall mods ext e x ps ts ret stop r,
  (mods = [] /\ ext = false /\ e = false \/ exists t, mods = [t] /\ (t_type t = T_KW_EXTERNAL /\ ext = true /\ e = false \/ t_type t = T_KW_EXPORT /\ ext = false /\ e = true)) ->
  head_at x ps ts ret (stop :: r) -> t_type stop = (if ext then T_NEWLINE else T_BRACKET_OPEN) ->
  node_gives (mods ++ ts) (stop :: r) (fun n => n_type n = N_FUNCTION_PROTO /\ exists rt k ps', n_pay n = PProto x rt k ext e ps' /\
    Forall2 param_says ps' ps /\ k = N.of_nat (length ps) /\ type_says rt ret).
Proof.
  intros mods ext e x ps ts ret stop r NM HA ST sub F i ms d L.
  assert (HH : exists po inner after, ts = x :: po :: inner /\ t_type x = T_IDENTIFIER /\ t_type po = T_PAREN_OPEN /\ params_at inner ps after /\
    (N.of_nat (length ps) < 2 ^ 16)%N /\ (ret = [] /\ after = stop :: r \/ bare_type ret /\ after = ret ++ stop :: r)).
  { inversion HA; subst; exists po, r0; eexists; repeat split; eauto. }
  destruct HH as (po & inner & after & -> & X & PO & PA & FW & RET).
  set (all := mods ++ x :: po :: inner) in *.
  destruct (params_run inner ps after PA (S (length inner)) [] (Nat.lt_succ_diag_r _)) as (ps' & pc & PR & PC & FP & LT).
  assert (LEN : length ps' = length ps) by (clear - FP; induction FP; cbn; congruence).
  assert (W : w16 (N.of_nat (length ps')) = N.of_nat (length ps)) by (unfold w16; rewrite LEN; now apply N.mod_small).
  assert (FN : firstn (N.to_nat (w16 (N.of_nat (length ps')))) ps' = ps') by (rewrite W, Nnat.Nat2N.id, <- LEN; apply firstn_all).
  assert (HD : exists t0 r0, all = t0 :: r0 /\ opener (t_type t0)).
  { unfold all. destruct NM as [(-> & _)|(t & -> & [(T & _)|(T & _)])]; cbn [app]; eexists _, _; (split; [reflexivity|]); unfold opener; rewrite ?T, ?X; cbn; tauto. }
  destruct HD as (t0 & r0 & HD & OP).
  assert (FI : exists rt te, type_says rt ret /\ finish_proto (at_ all ms d) x ext e ps' inner pc after =
    Ret (at_ (stop :: r) ms (mknode N_FUNCTION_PROTO all te (PProto x rt (N.of_nat (length ps)) ext e ps') [] :: d)) RESULT_OK).
  { unfold finish_proto. rewrite PC. change (ttype_eqb T_PAREN_CLOSE T_PAREN_CLOSE) with true. cbv iota.
    assert (TK : forall z zs, t_type z = t_type stop -> tok_is (z :: zs) (if ext then T_NEWLINE else T_BRACKET_OPEN) = true).
    { intros z zs Z. cbn [tok_is]. rewrite Z, ST. apply eqb_ttype. reflexivity. }
    destruct RET as [(-> & ->)|(B & ->)].
    - exists [], (pc :: stop :: r). split; [reflexivity|].
      assert (IP : is_potential_type (stop :: r) = None) by (cbn [is_potential_type]; unfold is_identifier_like; rewrite ST; destruct ext; reflexivity).
      rewrite IP, (TK stop r eq_refl). cbn [andb]. unfold accept_proto. cbn [n_st at_]. rewrite W. unfold push_ast_node, set_tok. cbn [p_err p_msgs n_done n_pend p_tok].
      rewrite Nnat.Nat2N.id, <- LEN, firstn_all. reflexivity.
    - destruct (type_found ret (stop :: r) B) as (a & l & E & P & NL). rewrite P, (TK stop r eq_refl).
      exists (ret ++ stop :: r), (l :: stop :: r). split; [unfold type_says; destruct ret; [inversion B|eauto]|].
      unfold accept_proto. cbn [n_st at_]. unfold push_ast_node, set_tok. rewrite W. cbn [p_err p_msgs n_done n_pend p_tok].
      rewrite Nnat.Nat2N.id, <- LEN, firstn_all. reflexivity. }
  destruct FI as (rt & te & TS & FI).
  exists (mknode N_FUNCTION_PROTO all te (PProto x rt (N.of_nat (length ps)) ext e ps') []).
  split; [split; [reflexivity|exists rt, (N.of_nat (length ps)), ps'; split; [reflexivity|auto]]|]. split; [split; [reflexivity|cbn [n_token]; rewrite HD; discriminate]|].
  rewrite HD at 1. rewrite node_chain by exact OP. rewrite <- HD. unfold chain.
  assert (NP : parse_function_proto (at_ all ms d) = finish_proto (at_ all ms d) x ext e ps' inner pc after).
  { unfold parse_function_proto. cbn [n_st p_tok at_]. fold (at_ all ms d). unfold all at 1.
    assert (CM : token_cmp2 (x :: po :: inner) T_IDENTIFIER T_PAREN_OPEN = Ok true) by (unfold token_cmp2; cbn [tok_is]; rewrite X, PO; reflexivity).
    destruct NM as [(-> & -> & ->)|(t & -> & [(T & -> & ->)|(T & -> & ->)])]; cbn [app]; [rewrite X|rewrite T|rewrite T];
      change (ttype_eqb T_IDENTIFIER T_KW_EXTERNAL) with false; change (ttype_eqb T_IDENTIFIER T_KW_EXPORT) with false; change (ttype_eqb T_KW_EXTERNAL T_KW_EXTERNAL) with true;
      change (ttype_eqb T_KW_EXPORT T_KW_EXTERNAL) with false; change (ttype_eqb T_KW_EXPORT T_KW_EXPORT) with true; change (ttype_eqb T_KW_EXTERNAL T_KW_EXPORT) with false;
      cbn [orb andb negb]; unfold all; cbn [app at_ p_tok]; rewrite CM, PR; reflexivity. }
  rewrite NP, FI. reflexivity.
Qed.

(** * Blocks and programs *)

Definition with_child (n : node) (ch : list node) : node := mknode (n_type n) (n_token n) (n_token_end n) (n_pay n) ch.

Definition stmt_runs (ts : list token) (s : stmt) (r : list token) : Prop :=
  (length r < length ts)%nat /\ forall f F i ms d, (length ts < F <= f)%nat ->
  exists n F', stands n s /\ n_token n <> [] /\ (length r < F' <= F)%nat /\
    tree_loop (parse_ast_tree_ f (S i)) F i (at_ ts ms d) = tree_loop (parse_ast_tree_ f (S i)) F' i (at_ r ms (n :: d)).
Definition block_runs (ts : list token) (b : list stmt) (r : list token) : Prop :=
  (length r < length ts)%nat /\ forall f F i ms d n0, (length ts < F <= f)%nat -> n_child n0 = [] ->
  exists ch F', all_stand ch b /\ (length r < F' <= F)%nat /\
    tree_loop (parse_ast_tree_ f (S i)) F i (at_ ts ms (n0 :: d)) = tree_loop (parse_ast_tree_ f (S i)) F' i (at_ r ms (with_child n0 ch :: d)).
Definition stmts_run (ts : list token) (l : list stmt) (r : list token) : Prop :=
  (length r <= length ts)%nat /\ forall f F i ms d, (length ts < F <= f)%nat ->
  exists ns F', all_stand ns l /\ Forall (fun n => n_token n <> []) ns /\ (length r < F' <= F)%nat /\
    tree_loop (parse_ast_tree_ f (S i)) F i (at_ ts ms d) = tree_loop (parse_ast_tree_ f (S i)) F' i (at_ r ms (rev ns ++ d)).

(** A statement without a block. *)
Lemma leaf_runs : forall ts s r (Q : node -> Prop), (length r < length ts)%nat -> node_gives ts r Q -> (forall n, Q n -> n_child n = [] -> stands n s) -> stmt_runs ts s r.
Proof.
  intros ts s r Q LR G ST. split; [exact LR|]. intros f F i ms d L. destruct (G (parse_ast_tree_ f (S i)) F i ms d) as (n & QN & (CH & NT) & E); [lia|].
  exists n, (pred F). split; [auto|]. split; [exact NT|]. split; [lia|]. apply step; [destruct ts; [cbn in LR; lia|discriminate]|lia|exact E].
Qed.
(** A statement with a block. *)
Lemma headed_runs : forall ts s r1 b r2 (Q : node -> Prop), (length r1 < length ts)%nat -> node_gives ts r1 Q -> block_runs r1 b r2 ->
  (forall n ch, Q n -> all_stand ch b -> stands (with_child n ch) s) -> stmt_runs ts s r2.
Proof.
  intros ts s r1 b r2 Q LR G (LB & B) ST. split; [lia|]. intros f F i ms d L.
  destruct (G (parse_ast_tree_ f (S i)) F i ms d) as (n & QN & (CH & NT) & E); [lia|].
  destruct (B f (pred F) i ms d n) as (ch & F' & A & LF & EB); [lia|exact CH|].
  exists (with_child n ch), F'. split; [auto|]. split; [exact NT|]. split; [lia|].
  rewrite <- EB. apply step; [destruct ts; [cbn in LR; lia|discriminate]|lia|exact E].
Qed.

Lemma tree_unfold : forall f i s, parse_ast_tree_ (S f) i s =
  (let* (c, _) := tree_loop (parse_ast_tree_ f (S i)) f i (mknctx s [] []) in
      if p_err (n_st c) then Ret (n_st c) None
      else
        match p_tok (n_st c), i with
        | [], S _ => Ret (fail P_EOF_NO_BRACKET None (n_st c)) None
        | _, _ => Ret (n_st c) (Some (match n_done c with [] => [mknode N_UNKNOWN [] [] PNone (n_pend c)] | _ :: _ => rev (n_done c) end))
        end).
Proof. reflexivity. Qed.

Lemma all_run : (forall ts s r, stmt_at ts s r -> stmt_runs ts s r) /\ (forall ts b r, block_at ts b r -> block_runs ts b r) /\
  (forall ts l r, stmts_at ts l r -> stmts_run ts l r).
Proof.
  apply at_ind.
  - intros t r ty K I. refine (leaf_runs (t :: r) (SWord ty) r _ _ (word_gives t r ty K I) _); [cbn; lia|]. intros n (T & P) CH. now constructor.
  - intros t r T LE. refine (leaf_runs (t :: r) _ r _ _ (return_node t r T LE) _); [cbn; lia|]. intros n (T' & P) CH. now constructor.
  - intros t r c r' T EX LE. pose proof (expr_at_shorter _ _ _ EX). refine (leaf_runs (t :: r) _ r' _ _ (result_gives t r c r' T EX LE) _); [cbn; lia|].
    intros n (T' & e & P & SY) CH. now apply st_result with e.
  - intros mods m e x q r c r' M X Q EX BE. pose proof (expr_at_shorter _ _ _ EX).
    refine (leaf_runs _ (SDef m e x None c) r' _ _ (def_gives mods m e x q r c r' M X Q EX BE) _); [rewrite app_length; cbn; lia|].
    intros n (T' & rest & ex & P & SY) CH. now apply st_define with rest ex.
  - intros mods m e x ty q r c r' M X B Q EX BE. pose proof (expr_at_shorter _ _ _ EX).
    refine (leaf_runs _ (SDef m e x (Some ty) c) r' _ _ (declare_gives mods m e x ty q r c r' M X B Q EX BE) _); [rewrite app_length; cbn; rewrite app_length; cbn; lia|].
    intros n (T' & rest & ex & P & SY) CH. now apply st_declare with rest ex.
  - intros x q r c r' X Q EX LE. pose proof (expr_at_shorter _ _ _ EX). refine (leaf_runs _ (SAssign x c) r' _ _ (assign_gives x q r c r' X Q EX LE) _); [cbn; lia|].
    intros n (T' & TK & e & P & SY) CH. now apply st_assign with (q :: r) e.
  - intros ts f args r' EX LE. pose proof (expr_at_shorter _ _ _ EX). refine (leaf_runs _ (SCall f args) r' _ _ (call_gives ts f args r' EX LE) _); [lia|].
    intros n (T' & e & P & SY) CH. now apply st_call with e.
  - intros t x r T X LE. refine (leaf_runs _ (SImport x) r _ _ (import_gives t x r T X) _); [cbn; lia|]. intros n (T' & TK & P) CH. now apply st_import with t r.
  - intros t r ty c r1 b r2 K I EX B IH. pose proof (expr_at_shorter _ _ _ EX).
    refine (headed_runs _ (SBlock ty (Some c) b) r1 b r2 _ _ (if_gives t r ty c r1 K I EX (block_stops _ _ _ B)) IH _); [cbn; lia|].
    intros n ch (T' & e & P & SY) A. subst ty. change (n_type n) with (n_type (with_child n ch)). now apply st_if with e.
  - intros t r b r2 T B IH. refine (headed_runs _ (SBlock N_ELSE None b) r b r2 _ _ (else_gives t r T) IH _); [cbn; lia|]. intros n ch (T' & P) A. now apply st_else.
  - intros t x r b r2 T X B IH. refine (headed_runs _ (SSpace x b) r b r2 _ _ (space_gives t x r T) IH _); [cbn; lia|].
    intros n ch (T' & TK & P) A. now apply st_space with t r.
  - intros mods e x ps ts ret bo r b r2 M HA BO B IH.
    assert (NM : mods = [] /\ false = false /\ e = false \/ exists t, mods = [t] /\ (t_type t = T_KW_EXTERNAL /\ false = true /\ e = false \/ t_type t = T_KW_EXPORT /\ false = false /\ e = true)).
    { destruct e; cbn in M; [destruct M as (t & -> & T); right; exists t; tauto|left; auto]. }
    assert (LR : (length (bo :: r) < length (mods ++ ts))%nat).
    { rewrite app_length. clear - HA. enough (length (bo :: r) < length ts)%nat by lia.
      inversion HA as [po z r' X PO PA FW E1 E2 E3|po z ty r' X PO PA FW BT E1 E2 E3]; subst.
      - destruct (params_run _ _ _ PA (S (length z)) [] (Nat.lt_succ_diag_r _)) as (ps' & pc & _ & _ & _ & LT).
        destruct LT as [(-> & _)|LT]; cbn [length] in *; lia.
      - destruct (params_run _ _ _ PA (S (length z)) [] (Nat.lt_succ_diag_r _)) as (ps' & pc & _ & _ & _ & LT).
        destruct LT as [(-> & _)|LT]; cbn [length] in *; rewrite app_length in *; cbn [length] in *; lia. }
    apply (headed_runs _ (SFunc e x ps ret b) (bo :: r) b r2 _ LR (head_gives mods false e x ps ts ret bo r NM HA BO) IH).
    intros n ch (T' & rt & k & ps' & P & FP & K & TS) A. now apply st_func with rt k ps'.
  - intros t x ps ts ret nl r T HA NL.
    assert (LR : (length (nl :: r) < length ([t] ++ ts))%nat).
    { rewrite app_length. clear - HA. enough (length (nl :: r) < length ts)%nat by lia.
      inversion HA as [po z r' X PO PA FW E1 E2 E3|po z ty r' X PO PA FW BT E1 E2 E3]; subst.
      - destruct (params_run _ _ _ PA (S (length z)) [] (Nat.lt_succ_diag_r _)) as (ps' & pc & _ & _ & _ & LT).
        destruct LT as [(-> & _)|LT]; cbn [length] in *; lia.
      - destruct (params_run _ _ _ PA (S (length z)) [] (Nat.lt_succ_diag_r _)) as (ps' & pc & _ & _ & _ & LT).
        destruct LT as [(-> & _)|LT]; cbn [length] in *; rewrite app_length in *; cbn [length] in *; lia. }
    apply (leaf_runs ([t] ++ ts) (SExtern x ps ret) (nl :: r) _ LR (head_gives [t] true false x ps ts ret nl r (or_intror (ex_intro _ t (conj eq_refl (or_introl (conj T (conj eq_refl eq_refl)))))) HA NL)).
    intros n (T' & rt & k & ps' & P & FP & K & TS) CH. now apply st_extern with rt k ps'.
  - intros bo r b bc r2 BO SS IH NE BC. destruct IH as (LB & IH). split; [cbn [length] in *; lia|]. intros f F i ms d n0 L CH.
    cbn [length] in L, LB. destruct f as [|f]; [lia|]. destruct F as [|F]; [lia|].
    destruct (IH f f (S i) ms []) as (ns & F' & A & NT & LF & E); [lia|].
    assert (NN : ns <> []) by (intros ->; inversion A; congruence).
    assert (END : forall sub c, p_tok (n_st c) = bc :: r2 -> p_err (n_st c) = false -> tree_loop sub F' (S i) c = Ret c tt).
    { intros sub c PT PE. destruct F' as [|F']; [cbn [length] in LF; lia|]. cbn [tree_loop]. rewrite PT. unfold parse_ast_node. rewrite PT, BC. reflexivity. }
    assert (SUB : parse_ast_tree_ (S f) (S i) (mkpst r false ms) = Ret (mkpst (bc :: r2) false ms) (Some ns)).
    { rewrite tree_unfold. fold (at_ r ms []). rewrite E. rewrite END by reflexivity. cbn [obind n_st at_ p_err p_tok n_done].
      rewrite app_nil_r. destruct (rev ns) eqn:RN; [apply (f_equal (@rev node)) in RN; rewrite rev_involutive in RN; contradiction|].
      rewrite <- RN, rev_involutive. reflexivity. }
    exists ns, F. split; [exact A|]. split; [lia|]. change F with (pred (S F)) at 2. apply step; [discriminate|cbn [length]; lia|].
    unfold parse_ast_node. cbn [n_st p_tok at_]. rewrite BO. unfold parse_ast_sub_tree_, at_.
    destruct n0 as [ty tk te p ch0]. cbn [n_child] in CH. subst ch0. cbn [n_st p_tok n_done]. unfold next_token. cbn [p_tok obind]. unfold set_tok. cbn [p_tok p_msgs p_err].
    rewrite SUB. cbn [obind p_tok p_err p_msgs]. destruct ns as [|[ty1 tk1 te1 p1 ch1] ns]; [contradiction|].
    inversion NT as [|? ? N1 N2]; subst. cbn [n_token] in N1. destruct tk1 as [|t1 tk1]; [contradiction|]. reflexivity.
  - intros nl r b r2 NL B (LB & IH). split; [cbn [length]; lia|]. intros f F i ms d n0 L CH. cbn [length] in L.
    destruct (IH f (pred F) i ms d n0) as (ch & F' & A & LF & E); [lia|exact CH|]. exists ch, F'. split; [exact A|]. split; [lia|]. rewrite <- E.
    apply step; [discriminate|cbn [length]; lia|]. now apply newline_node.
  - intros r. split; [lia|]. intros f F i ms d L. exists [], F. split; [constructor|]. split; [constructor|]. split; [lia|reflexivity].
  - intros nl r l r' NL SS (LB & IH). split; [cbn [length]; lia|]. intros f F i ms d L. cbn [length] in L.
    destruct (IH f (pred F) i ms d) as (ns & F' & A & NT & LF & E); [lia|]. exists ns, F'. split; [exact A|]. split; [exact NT|]. split; [lia|]. rewrite <- E.
    apply step; [discriminate|cbn [length]; lia|]. now apply newline_node.
  - intros ts s r l r' S1 (LS & IS) SS (LB & IH). split; [lia|]. intros f F i ms d L. destruct (IS f F i ms d L) as (n & F1 & ST & NT & LF & E).
    destruct (IH f F1 i ms (n :: d)) as (ns & F2 & A & NTS & LF2 & E2); [lia|]. exists (n :: ns), F2. split; [now constructor|]. split; [now constructor|].
    split; [lia|]. rewrite E, E2. cbn [rev]. now rewrite <- app_assoc.
Qed.

Lemma program_parses : forall ts l, stmts_at ts l [] -> l <> [] -> exists tree, parse_ast_tree ts = Ret [] (Some tree) /\ all_stand tree l.
Proof.
  intros ts l H NE. destruct all_run as (_ & _ & R). destruct (R _ _ _ H) as (_ & G). clear R.
  destruct (G (S (length ts)) (S (length ts)) 0%nat [] []) as (ns & F' & A & NT & LF & E); [lia|]. exists ns. split; [|exact A].
  assert (NN : ns <> []) by (intros ->; inversion A; congruence).
  unfold parse_ast_tree. rewrite tree_unfold. fold (at_ ts [] []). rewrite E. destruct F' as [|F']; [cbn [length] in LF; lia|].
  cbn [tree_loop n_st at_ p_tok obind p_err n_done]. rewrite app_nil_r.
  destruct (rev ns) eqn:RN; [apply (f_equal (@rev node)) in RN; rewrite rev_involutive in RN; contradiction|]. rewrite <- RN, rev_involutive.
  cbn [obind p_msgs p_err rev option_map]. destruct ns as [|[ty1 tk1 te1 p1 ch1] ns]; [contradiction|].
  inversion NT as [|? ? N1 N2]; subst. cbn [n_token] in N1. destruct tk1 as [|t1 tk1]; [contradiction|]. reflexivity.
Qed.
