(** The helper functions are there, and the file as a whole. *)
From Coq Require Import List Arith NArith ZArith Bool Lia Ascii String.
From Verif Require Import Base Model_Token Model_Literal Model_Parse Model_Sem Spec_Parse Spec_Sem Spec_Sem2 Proof_Sem8 Model_Names Model_CGen Model_CFile Spec_C Proof_C Proof_C2 Spec_CGen
  Proof_CGen Proof_CGen2 Spec_CProg Proof_CProg Spec_CBack Proof_CProg2 Proof_CProg3.
Import ListNotations.
Open Scope list_scope.
Open Scope N_scope.

Definition flag (h : helper) (g : cst) : bool :=
  match h with HStrcmp => k_strcmp g | HIntPow => k_int_pow g | HFloatPow => k_float_pow g end.
Definition keeps (g g' : cst) : Prop := forall h, flag h g = true -> flag h g' = true.
Lemma keeps_refl : forall g, keeps g g.
Proof. intros g h H. exact H. Qed.
Lemma keeps_trans : forall a b c, keeps a b -> keeps b c -> keeps a c.
Proof. intros a b c H1 H2 h H. now apply H2, H1. Qed.
Lemma keeps_globals : forall g t, keeps g (set_globals g t).
Proof. intros g t [| |] H; exact H. Qed.
Lemma keeps_indent : forall g k, keeps g (set_indent g k).
Proof. intros g t [| |] H; exact H. Qed.

Section Flags.
Variable env : cctx.

Definition needs (x : texpr) (h : helper) : Prop := exists o a b t c, xpart (XBin o a b t c) x /\ helper_for o (x_ty a) t = Some h.
Definition noted (x : texpr) (g g' : cst) : Prop := keeps g g' /\ forall h, needs x h -> flag h g' = true.

Lemma binary_keeps : forall o l t g, keeps g (note_binary o l t g).
Proof.
  intros o l t g h H. destruct o; cbn [note_binary]; try exact H; try (destruct (ty_eqb l TStr); [destruct h; auto|exact H]).
  destruct (ty_eqb t TInt); [destruct h; auto|]. destruct (ty_eqb t TFloat); [destruct h; auto|exact H].
Qed.
Lemma binary_sets : forall o l t g h, helper_for o l t = Some h -> flag h (note_binary o l t g) = true.
Proof.
  intros o l t g h H. destruct o; cbn [helper_for] in H; try discriminate H.
  - destruct l; try discriminate H; assert (HIntPow = h \/ HFloatPow = h) as [<-|<-] by (destruct t; try discriminate H; (left; congruence) || (right; congruence)); destruct t; try discriminate H; reflexivity.
  - destruct l; try discriminate H. assert (HStrcmp = h) as <- by congruence. reflexivity.
  - destruct l; try discriminate H. assert (HStrcmp = h) as <- by congruence. reflexivity.
Qed.

Lemma note_noted : forall x, good env x -> forall g, noted x g (note_expr env x g).
Proof.
  intro x. induction x as [t k ty c|t v ty|t k args ty F|o r ty c IH|o l r ty c IHl IHr] using texpr_ind'; intros G g; cbn [note_expr].
  - split; [apply keeps_refl|]. intros h (o & a & b & t0 & c0 & X & _). inversion X.
  - split; [apply keeps_refl|]. intros h (o & a & b & t0 & c0 & X & _). inversion X.
  - destruct (G _ (xp_self _)) as (y & f & E & K & _ & L). rewrite E. destruct y as [n0 u0 k0]. cbn [y_kind] in K. subst k0. rewrite L, Nat2N.id.
    assert (GA : Forall (good env) args) by (apply Forall_forall; intros a I p XP; apply G; now apply xp_arg with a).
    clear E L G. 
    assert (X : forall g, keeps g ((fix go (n : nat) (args : list texpr) (g : cst) {struct args} : cst :=
        match n, args with S n, a :: r => go n r (note_expr env a g) | _, _ => g end) (List.length args) args g) /\
        forall a h, In a args -> needs a h -> flag h ((fix go (n : nat) (args : list texpr) (g : cst) {struct args} : cst :=
        match n, args with S n, a :: r => go n r (note_expr env a g) | _, _ => g end) (List.length args) args g) = true).
    { induction F as [|a args H F IH]; intro g0; [split; [apply keeps_refl|intros a h []]|]. inversion GA as [|a' args' G1 G2]; subst a' args'.
      cbn [List.length]. destruct (H G1 g0) as (K1 & N1). destruct (IH G2 (note_expr env a g0)) as (K2 & N2). split; [exact (keeps_trans _ _ _ K1 K2)|].
      intros b h [<-|I] NB; [apply K2, N1; exact NB|now apply (N2 b)]. }
    destruct (X g) as (K1 & N1). split; [exact K1|]. intros h (o & a & b & t0 & c0 & XP & HH). inversion XP as [|x' name k' args' ty' a' I XA| | |]; subst.
    apply (N1 a' h I). exists o, a, b, t0, c0. auto.
  - assert (G1 : good env r) by (intros p XP; apply G; now apply xp_un). destruct (IH G1 g) as (K1 & N1). split; [exact K1|].
    intros h (o0 & a & b & t0 & c0 & XP & HH). inversion XP as [| |x' o' a' ty' c' XA| |]; subst. apply N1. exists o0, a, b, t0, c0. auto.
  - assert (G1 : good env l) by (intros p XP; apply G; now apply xp_left). assert (G2 : good env r) by (intros p XP; apply G; now apply xp_right).
    set (g0 := note_binary o (x_ty l) ty g). destruct (IHl G1 g0) as (K1 & N1). destruct (IHr G2 (note_expr env l g0)) as (K2 & N2).
    split; [exact (keeps_trans _ _ _ (binary_keeps o (x_ty l) ty g) (keeps_trans _ _ _ K1 K2))|].
    intros h (o0 & a & b & t0 & c0 & XP & HH). inversion XP as [e| | |x' o' a' b' ty' c' XA|x' o' a' b' ty' c' XA]; subst.
    + apply K2, K1. now apply binary_sets.
    + apply K2, N1. exists o0, a, b, t0, c0. auto.
    + apply N2. exists o0, a, b, t0, c0. auto.
Qed.

(** What is known of the nodes of accepted programs. *)
Definition shape (n : tnode) : Prop :=
  (forall y, checked_expr n = Some y -> good env y) /\
  match tn_type n with
  | N_VAR_DEF | N_VAR_ASSIGN | N_EXPR | N_RETURN => tn_child n = []
  | N_IF | N_ELIF | N_WHILE | N_NAMESPACE => True
  | N_FUNCTION_PROTO => forall k ks x f, tn_pay n = XProto k ks -> is_fun env k x f -> f_external f = true -> tn_child n = []
  | N_ELSE => checked_expr n = None
  | _ => tn_child n = [] /\ checked_expr n = None
  end.

Definition helps (l : list tnode) (g g' : cst) : Prop :=
  keeps g g' /\ forall m x h, in_checked m l -> checked_expr m = Some x -> needs x h -> flag h g' = true.

Lemma here_or_below : forall m n, in_checked m [n] -> m = n \/ in_checked m (tn_child n).
Proof. intros m n H. inversion H as [l I|y l I B]; subst l; destruct I as [<-|[]]; auto. Qed.
Lemma checked_cons : forall m n l, in_checked m (n :: l) -> in_checked m [n] \/ in_checked m l.
Proof.
  intros m n l H. inversion H as [l' I|y l' I B]; subst l'; destruct I as [<-|I].
  - left. apply ic_here. now left.
  - right. now apply ic_here.
  - left. apply (ic_below _ n); [now left|exact B].
  - right. now apply (ic_below _ y).
Qed.
Lemma below_single : forall m n, in_checked m (tn_child n) -> in_checked m [n].
Proof. intros m n H. apply (ic_below _ n); [now left|exact H]. Qed.
Lemma single_in : forall m n l, In n l -> in_checked m [n] -> in_checked m l.
Proof. intros m n l I H. apply here_or_below in H as [-> | B]; [now apply ic_here|now apply (ic_below _ n)]. Qed.
Lemma nothing_below : forall m, ~ in_checked m [].
Proof. intros m H. inversion H as [l I|y l I B]; destruct I. Qed.

Lemma leaf_helps : forall n g g', tn_child n = [] -> keeps g g' -> (forall x h, checked_expr n = Some x -> needs x h -> flag h g' = true) -> helps [n] g g'.
Proof.
  intros n g g' C K N. split; [exact K|]. intros m x h IC E NE. apply here_or_below in IC as [-> |B]; [now apply (N x)|]. rewrite C in B. destruct (nothing_below m B).
Qed.
Lemma expr_helps : forall e g t g', good env e -> expr_c env e g = Ok (t, g') -> noted e g g'.
Proof.
  intros e g t g' G H. unfold expr_c in H. apply bind_some in H as (t0 & _ & H). assert (note_expr env e g = g') as <- by congruence. now apply note_noted.
Qed.

Lemma loop_helps : forall l, (forall n, In n l -> forall g s g', gen_node_c env n g = Ok (s, g') -> helps [n] g g') ->
  forall acc g t g', tree_loop_c (gen_node_c env) l acc g = Ok (t, g') -> helps l g g'.
Proof.
  induction l as [|n l IH]; intros F acc g t g' H; cbn [tree_loop_c] in H.
  - assert (g = g') as <- by congruence. split; [apply keeps_refl|]. intros m x h B. destruct (nothing_below m B).
  - apply bind_some in H as ((s, g1) & H1 & H). destruct (F n (or_introl eq_refl) _ _ _ H1) as (K1 & N1).
    destruct (IH (fun m M => F m (or_intror M)) _ _ _ _ H) as (K2 & N2). split; [exact (keeps_trans _ _ _ K1 K2)|].
    intros m x h B E NE. apply checked_cons in B as [B|B]; [apply K2; now apply (N1 m x)|now apply (N2 m x)].
Qed.
Lemma tree_helps : forall l, (forall n, In n l -> forall g s g', gen_node_c env n g = Ok (s, g') -> helps [n] g g') ->
  forall g t g', gen_tree_with (gen_node_c env) l g = Ok (t, g') -> helps l g g'.
Proof.
  intros l F g t g' H. unfold gen_tree_with in H. apply bind_some in H as ((t1, g1) & H1 & H). assert (set_indent g1 (k_indent g1 - 1) = g') as <- by congruence.
  destruct (loop_helps l F _ _ _ _ H1) as (K & N). split.
  - exact (keeps_trans _ _ _ (keeps_indent _ _) (keeps_trans _ _ _ K (keeps_indent _ _))).
  - intros m x h B E NE. apply keeps_indent. now apply (N m x).
Qed.

Lemma block_helps : forall n g1 g2 g3, helps (tn_child n) g2 g3 -> keeps g1 g2 -> (forall x h, checked_expr n = Some x -> needs x h -> flag h g2 = true) -> helps [n] g1 g3.
Proof.
  intros n g1 g2 g3 (K & N) K1 N1. split; [exact (keeps_trans _ _ _ K1 K)|]. intros m x h B E NE. apply here_or_below in B as [-> |B]; [apply K; now apply (N1 x)|now apply (N m x)].
Qed.
Lemma helps_after : forall l g1 g2 g3, helps l g1 g2 -> keeps g2 g3 -> helps l g1 g3.
Proof. intros l g1 g2 g3 (K & N) K1. split; [exact (keeps_trans _ _ _ K K1)|]. intros m x h B E NE. apply K1. now apply (N m x). Qed.

Lemma node_helps : forall n, (forall m, in_checked m [n] -> shape m) -> forall g s g', gen_node_c env n g = Ok (s, g') -> helps [n] g g'.
Proof.
  intro n. induction n as [ty tok p c F] using tnode_ind'. intros OKS g str g' H.
  destruct (OKS (mktnode ty tok p c)) as (GD & SH); [apply ic_here; now left|]. cbn [tn_type tn_child tn_pay] in SH.
  assert (SUB : forall g t g', gen_tree_with (gen_node_c env) c g = Ok (t, g') -> helps c g g').
  { apply tree_helps. intros m M g0 s0 g0' H0. rewrite Forall_forall in F. apply (F m M) with s0; [|exact H0].
    intros m' IC. apply OKS. apply below_single. cbn [tn_child]. now apply (single_in _ m). }
  cbn [gen_node_c] in H. apply bind_some in H as ((s1, g1) & H1 & H).
  assert (g1 = g') as ->. { destruct s1 as [t|]; [|congruence]. apply bind_some in H as (x & _ & H). congruence. }
  clear H. set (n := mktnode ty tok p c) in *.
  assert (SOME : forall (r : res (text * cst)), (do (t, g) <- r; Ok (Some t, g)) = Ok (s1, g') -> exists t, r = Ok (t, g')).
  { intros r E. apply bind_some in E as ((t, g2) & -> & E). exists t. congruence. }
  assert (CTRL : forall w t, gen_control_block_c env w p (gen_tree_with (gen_node_c env) c) g = Ok (t, g') -> helps [n] g g').
  { intros w t E. unfold gen_control_block_c in E. apply bind_some in E as (e & E1 & E). apply bind_some in E as ((x, g2) & E2 & E).
    apply bind_some in E as ((t1, g3) & E3 & E). apply bind_some in E as (t2 & _ & E). assert (g3 = g') as -> by congruence.
    assert (p = XExpr e) as P by (destruct p; try discriminate E1; cbn [Model_CFile.node_expr] in E1; congruence).
    assert (CE : checked_expr n = Some e) by (unfold checked_expr, n; cbn [tn_pay]; now rewrite P).
    destruct (expr_helps e g x g2 (GD e CE) E2) as (K1 & N1). refine (block_helps n g g2 g' (SUB _ _ _ E3) K1 _). intros x0 h X. rewrite CE in X. assert (e = x0) as <- by congruence. apply N1. }
  assert (QUIET : g = g' -> tn_child n = [] -> checked_expr n = None -> helps [n] g g').
  { intros <- C CE. apply leaf_helps; [exact C|apply keeps_refl|]. intros x h X. rewrite CE in X. discriminate X. }
  assert (PLAIN : forall e t, checked_expr n = Some e -> expr_c env e g = Ok (t, g') -> tn_child n = [] -> helps [n] g g').
  { intros e t CE E C. destruct (expr_helps e g t g' (GD e CE) E) as (K & N). apply leaf_helps; [exact C|exact K|]. intros x h X. rewrite CE in X. assert (e = x) as <- by congruence. apply N. }
  destruct ty.
  - apply QUIET; [congruence|apply SH|apply SH].
  - destruct p as [| |k0 e|k0 e|k0 ks|e|k] eqn:P; try discriminate H1; [apply QUIET; [congruence|exact SH|reflexivity]|].
    unfold gen_stmt_var_def_c in H1. apply bind_some in H1 as ((x, v) & _ & H1). destruct (k_indent g =? 1).
    + unfold gen_stmt_global_var in H1. destruct (v_cexpr v) as [[|]|]; [| |discriminate H1].
      * apply bind_some in H1 as (g2 & H1 & H). assert (g2 = g') as -> by congruence. clear H. unfold gen_stmt_constexpt_global_var in H1. apply bind_some in H1 as ((value, g3) & H1 & H).
        destruct (expr_helps e g value g3 (GD e eq_refl) H1) as (K & N).
        assert (K2 : keeps g3 g').
        { destruct (v_exported v); [destruct (v_const v); [|discriminate H]; apply bind_some in H as (l & _ & H)|]; apply ok_inj in H; subst g'; apply keeps_globals. }
        apply (helps_after _ g g3); [|exact K2]. apply leaf_helps; [exact SH|exact K|]. intros x0 h X. cbn in X. assert (e = x0) as <- by congruence. apply N.
      * apply bind_some in H1 as (g2 & H1 & H). apply bind_some in H as ((t, g3) & H2 & H). assert (g3 = g') as -> by congruence. clear H.
        assert (K2 : keeps g g2) by (destruct (v_exported v); [apply bind_some in H1 as (l & _ & H1)|]; apply ok_inj in H1; subst g2; apply keeps_globals).
        unfold gen_stmt_var_assign_c_ in H2. apply bind_some in H2 as ((value, g3) & H2 & H). assert (g3 = g') as -> by congruence.
        destruct (expr_helps e g2 value g' (GD e eq_refl) H2) as (K & N). apply leaf_helps; [exact SH|exact (keeps_trans _ _ _ K2 K)|].
        intros x0 h X. cbn in X. assert (e = x0) as <- by congruence. apply N.
    + apply bind_some in H1 as ((t, g2) & H1 & H). assert (g2 = g') as -> by congruence. clear H. unfold gen_stmt_stack_var in H1. apply bind_some in H1 as ((x0, g3) & H1 & H).
      assert (g3 = g') as -> by congruence. exact (PLAIN e x0 eq_refl H1 SH).
  - destruct p as [| |k0 e|k0 e|k0 ks|e|k] eqn:P; try discriminate H1. apply SOME in H1 as (t & H1).
    unfold gen_stmt_var_assign_c in H1. apply bind_some in H1 as ((x, v) & _ & H1). unfold gen_stmt_var_assign_c_ in H1. apply bind_some in H1 as ((value, g3) & H2 & H). assert (g3 = g') as -> by congruence.
    exact (PLAIN e value eq_refl H2 SH).
  - destruct p as [| |k0 e|k0 e|k0 ks|e|k] eqn:P; try discriminate H1. apply bind_some in H1 as (g2 & H1 & H). assert (g2 = g') as -> by congruence. clear H.
    unfold gen_function_def_c in H1. apply bind_some in H1 as ((f, g3) & H1 & H). apply ok_inj in H. rewrite <- H. apply (helps_after _ g g3); [|apply keeps_globals].
    unfold gen_function_prototype_c in H1. apply bind_some in H1 as (y & Y & H1).
    assert (NY : nth_error (ce_syms env) k0 = Some y) by (unfold Model_Sem.deref in Y; destruct (nth_error (ce_syms env) k0); [congruence|discriminate Y]).
    destruct (y_kind y) as [v|ff|a|a] eqn:K; try discriminate H1.
    apply bind_some in H1 as (list & _ & H1). apply bind_some in H1 as (fwd & _ & H1). destruct (f_external ff) eqn:EX.
    + assert (g = g3) as <- by (destruct (f_export ff); congruence). assert (C : c = []) by (apply (SH k0 ks (y_name y) ff eq_refl); [exists y; auto|exact EX]).
      apply leaf_helps; [exact C|apply keeps_refl|]. intros x h X. discriminate X.
    + apply bind_some in H1 as ((t, g4) & H1 & H2). apply bind_some in H2 as (t2 & _ & H2). apply bind_some in H2 as (out & _ & H2).
      assert (set_indent g4 (k_indent g) = g3) as <- by congruence. apply (helps_after _ g g4); [|apply keeps_indent].
      refine (block_helps n g (set_indent g 0) g4 (SUB _ _ _ H1) (keeps_indent _ _) _). intros x h X. discriminate X.
  - apply SOME in H1 as (t & H1). unfold gen_stmt_func_call_c in H1. apply bind_some in H1 as (e & E1 & H1). apply bind_some in H1 as ((x, g2) & H1 & H). assert (g2 = g') as -> by congruence.
    assert (p = XExpr e) as P by (destruct p; try discriminate E1; cbn [Model_CFile.node_expr] in E1; congruence).
    apply (PLAIN e x); [unfold checked_expr, n; cbn [tn_pay]; now rewrite P|exact H1|exact SH].
  - apply SOME in H1 as (t & H1). unfold gen_stmt_return_c in H1. destruct p as [| |k0 e|k0 e|k0 ks|e|k] eqn:P; try discriminate H1; [apply QUIET; [congruence|exact SH|reflexivity]|].
    cbn [Model_CFile.node_expr bind] in H1. apply bind_some in H1 as ((x, g2) & H1 & H). assert (g2 = g') as -> by congruence. exact (PLAIN e x eq_refl H1 SH).
  - apply QUIET; [congruence|apply SH|apply SH].
  - apply SOME in H1 as (t & H1). exact (CTRL _ t H1).
  - apply SOME in H1 as (t & H1). exact (CTRL _ t H1).
  - apply SOME in H1 as (t & H1). unfold gen_control_else_c in H1. apply bind_some in H1 as ((t1, g3) & H1 & H). apply bind_some in H as (t2 & _ & H). assert (g3 = g') as -> by congruence.
    refine (block_helps n g g g' (SUB _ _ _ H1) (keeps_refl _) _). intros x h X. rewrite SH in X. discriminate X.
  - apply SOME in H1 as (t & H1). exact (CTRL _ t H1).
  - apply QUIET; [congruence|apply SH|apply SH].
  - apply SOME in H1 as (t & H1). unfold gen_control_namespace_c in H1. destruct p as [| |k0 e|k0 e|k0 ks|e|k] eqn:P; try discriminate H1.
    apply bind_some in H1 as ((t1, g3) & H1 & H). apply bind_some in H as (y & _ & H). apply bind_some in H as (t2 & _ & H). assert (g3 = g') as -> by congruence.
    refine (block_helps n g g g' (SUB _ _ _ H1) (keeps_refl _) _). intros x h X. discriminate X.
  - apply QUIET; [congruence|apply SH|apply SH].
  - apply QUIET; [congruence|apply SH|apply SH].
  - apply QUIET; [congruence|apply SH|apply SH].
  - apply QUIET; [congruence|apply SH|apply SH].
Qed.

Lemma program_helps : forall l t g, (forall m, in_checked m l -> shape m) -> gen_tree_c env l setup_c_state = Ok (t, g) ->
  forall m x h, in_checked m l -> checked_expr m = Some x -> needs x h -> flag h g = true.
Proof.
  intros l t g S H. refine (proj2 (tree_helps l _ _ _ _ H)). intros n I g0 s g0' H0. apply node_helps with s; [|exact H0]. intros m B. apply S. now apply (single_in _ n).
Qed.
End Flags.
