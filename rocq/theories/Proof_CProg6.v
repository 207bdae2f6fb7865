(** For which accepted programs a C file is written. *)
From Coq Require Import List Arith NArith ZArith Bool Lia Ascii String.
From Verif Require Import Proof_Sem7 Proof_Order.
From Verif Require Import Base Model_Token Model_Literal Model_Parse Model_Sem Spec_Parse Spec_Sem Spec_Sem2 Proof_Sem Proof_Sem2 Proof_Sem4 Proof_Sem5 Proof_Sem6 Proof_Sem8
  Proof_SymNames Proof_Parse2 Proof_Parse4 Model_Names Spec_Names Proof_Names Model_CGen Model_CFile Spec_C Proof_C Proof_C2 Spec_CGen
  Proof_CGen Proof_CGen2 Proof_LLVM11 Spec_CProg Proof_CProg Spec_CBack Proof_CProg2 Proof_CProg3 Proof_CProg4 Proof_CProg5.
Import ListNotations.
Open Scope list_scope.
Open Scope N_scope.

Section Written.
Variable env : cctx.

Definition var_at (k : nat) : option var := match nth_error (ce_syms env) k with Some (mksym _ _ (KVar v)) => Some v | _ => None end.
Definition fun_at (k : nat) : option func := match nth_error (ce_syms env) k with Some (mksym _ _ (KFunc f)) => Some f | _ => None end.
Lemma var_at_is : forall k x v, is_var env k x v -> var_at k = Some v.
Proof. intros k x v (y & E & _ & K). unfold var_at. rewrite E. destruct y as [a b c]. cbn [y_kind] in K. now rewrite K. Qed.
Lemma fun_at_is : forall k x f, is_fun env k x f -> fun_at k = Some f.
Proof. intros k x f (y & E & _ & K). unfold fun_at. rewrite E. destruct y as [a b c]. cbn [y_kind] in K. now rewrite K. Qed.

Definition constant (k : nat) : bool := match var_at k with Some v => match v_cexpr v with Some b => b | None => false end | None => false end.
Definition loose (k : nat) : bool := match var_at k with Some v => constant k && v_exported v && negb (v_const v) | None => false end.
Definition external (k : nat) : bool := match fun_at k with Some f => f_external f | None => false end.

Definition silentb (top : bool) (n : tnode) : bool :=
  match tn_type n with
  | N_COMMENT | N_IMPORT | N_UNKNOWN | N_FUNCTION_PROTO => true
  | N_VAR_DEF => match tn_pay n with XAlias => true | XDef k _ => top && constant k | _ => false end
  | _ => false
  end.
Fixpoint fineb (top : bool) (n : tnode) : bool :=
  match n with
  | mktnode ty _ p c =>
      match ty with
      | N_VAR_DEF => match p with XDef k _ => negb (top && loose k) | _ => true end
      | N_IF | N_ELIF | N_ELSE | N_WHILE | N_NAMESPACE => existsb (fun m => negb (silentb false m)) c && forallb (fineb false) c
      | N_FUNCTION_PROTO =>
          match p with
          | XProto k _ => if external k then true else existsb (fun m => negb (silentb true m)) c && forallb (fineb true) c
          | _ => true
          end
      | _ => true
      end
  end.

(** What is known of the nodes. *)
Definition ready (n : tnode) : Prop :=
  (forall y, checked_expr n = Some y -> good env y) /\ (tn_type n <> N_UNKNOWN -> tn_token n <> []) /\
  match tn_type n with
  | N_VAR_DEF => tn_pay n = XAlias \/ exists k e x v b, tn_pay n = XDef k e /\ is_var env k x v /\ v_cexpr v = Some b
  | N_VAR_ASSIGN => exists k e x v, tn_pay n = XSet k e /\ is_var env k x v
  | N_EXPR | N_IF | N_ELIF | N_WHILE => exists e, tn_pay n = XExpr e
  | N_RETURN => tn_pay n = XNone \/ exists e, tn_pay n = XExpr e
  | N_NAMESPACE => exists k y, tn_pay n = XSpace k /\ nth_error (ce_syms env) k = Some y
  | N_FUNCTION_PROTO => exists k ks x f, tn_pay n = XProto k ks /\ is_fun env k x f /\ N.to_nat (f_num f) = List.length ks /\
      Forall (fun j => exists x v, is_var env j x v) ks /\ (f_external f = true -> tn_child n = [])
  | _ => True
  end.

Hypothesis known : labels_known env.

Lemma expr_gen : forall e g, good env e -> exists t, expr_c env e g = Ok (t, note_expr env e g).
Proof. intros e g G. destruct (gen_back env e G) as (t & _ & _ & E & _). exists t. unfold expr_c. now rewrite E. Qed.
Lemma note_indent : forall e g, k_indent (note_expr env e g) = k_indent g.
Proof.
  intro e. induction e as [t k ty c|t v ty|t k args ty F|o r ty c IH|o l r ty c IHl IHr] using texpr_ind'; intro g; cbn [note_expr]; auto.
  - destruct (nth_error (ce_syms env) k) as [[n0 u0 [v|f|a|a]]|]; auto. generalize (N.to_nat (f_num f)) as m. revert g.
    induction F as [|a args H F IH]; intros g m; destruct m; auto. rewrite IH. apply H.
  - rewrite IHr, IHl. destruct o; cbn [note_binary]; auto; try (destruct (ty_eqb (x_ty l) TStr); reflexivity). destruct (ty_eqb ty TInt); [reflexivity|]. now destruct (ty_eqb ty TFloat).
Qed.
Lemma var_gen : forall k x v, is_var env k x v -> sym_var_c env k = Ok (x, v).
Proof. intros k x v (y & E & <- & K). unfold sym_var_c, Model_Sem.deref. rewrite E. cbn [bind]. now rewrite K. Qed.
Lemma link_gen : forall k, ce_linkage env k <> None -> exists t, linkage env k = Ok t.
Proof. intros k H. unfold linkage. destruct (ce_linkage env k) as [t|]; [eauto|congruence]. Qed.
Lemma params_gen : forall ks list, Forall (fun j => exists x v, is_var env j x v) ks -> exists t, params_c env (List.length ks) ks list = Ok t.
Proof.
  intros ks list F. revert list. induction F as [|k ks (x & v & V) F IH]; intro list; [exists list; reflexivity|].
  cbn [List.length params_c]. unfold gen_param_c. rewrite (var_gen _ _ _ V). cbn [bind]. apply IH.
Qed.
Lemma debug_gen : forall tok t, tok <> [] -> exists t', apply_debug_info env tok t = Ok t'.
Proof. intros tok t H. unfold apply_debug_info. destruct (ce_debug env); [|eauto]. destruct tok; [congruence|eauto]. Qed.

Definition top_of (g : cst) : bool := k_indent g =? 1.
Definition gives (top : bool) (n : tnode) (r : res (option text * cst)) (i : N) : Prop :=
  if fineb top n then exists s g', r = Ok (s, g') /\ k_indent g' = i /\ (s = None <-> silentb top n = true) else r = UB.

Lemma loop_gives : forall top l, (forall n, In n l -> forall g, 1 <= k_indent g -> top_of g = top -> gives top n (gen_node_c env n g) (k_indent g)) ->
  forall acc g, 1 <= k_indent g -> top_of g = top ->
  if forallb (fineb top) l then exists t g', tree_loop_c (gen_node_c env) l acc g = Ok (t, g') /\ k_indent g' = k_indent g /\
    (t = None <-> acc = None /\ forallb (silentb top) l = true)
  else tree_loop_c (gen_node_c env) l acc g = UB.
Proof.
  intros top l. induction l as [|n l IH]; intros F acc g LE TP; cbn [forallb tree_loop_c].
  - exists acc, g. repeat split; tauto.
  - pose proof (F n (or_introl eq_refl) g LE TP) as H. unfold gives in H. destruct (fineb top n); [|rewrite H; reflexivity].
    destruct H as (s & g1 & -> & I1 & N1). cbn [bind andb].
    set (acc' := match s, acc with Some t, Some old => Some (old ++ [10] ++ t) | Some t, None => Some t | None, _ => acc end).
    assert (AN : acc' = None <-> acc = None /\ silentb top n = true) by (rewrite <- N1; unfold acc'; destruct s, acc; split; intuition congruence).
    specialize (IH (fun m M => F m (or_intror M)) acc' g1). rewrite I1 in IH. unfold top_of in IH, TP. rewrite I1 in IH. specialize (IH LE TP).
    destruct (forallb (fineb top) l).
    + destruct IH as (t & g' & E & I2 & N2). exists t, g'. split; [exact E|]. split; [exact I2|]. rewrite N2, AN, andb_true_iff. tauto.
    + exact IH.
Qed.

Lemma tree_gives : forall top l g, (forall n, In n l -> forall g, 1 <= k_indent g -> top_of g = top -> gives top n (gen_node_c env n g) (k_indent g)) ->
  (k_indent g + 1 =? 1) = top ->
  if forallb (fineb top) l then exists t g', gen_tree_with (gen_node_c env) l g = Ok (t, g') /\ k_indent g' = k_indent g /\
    (t = None <-> existsb (fun m => negb (silentb top m)) l = false)
  else gen_tree_with (gen_node_c env) l g = UB.
Proof.
  intros top l g F TP. unfold gen_tree_with.
  pose proof (loop_gives top l F None (set_indent g (k_indent g + 1))) as H. cbn [set_indent k_indent] in H. specialize (H ltac:(lia)). unfold top_of in H. cbn [k_indent] in H. specialize (H TP).
  destruct (forallb (fineb top) l); [|rewrite H; reflexivity].
  destruct H as (t & g' & E & I1 & N1). exists t, (set_indent g' (k_indent g' - 1)). rewrite E. split; [reflexivity|]. split; [cbn [set_indent k_indent]; lia|].
  rewrite N1. clear. split.
  - intros (_ & H). induction l as [|n l IH]; [reflexivity|]. cbn [forallb existsb] in *. apply andb_prop in H as (-> & H). cbn. auto.
  - intro H. split; [reflexivity|]. induction l as [|n l IH]; [reflexivity|]. cbn [forallb existsb] in *. apply orb_false_elim in H as (H1 & H). apply negb_false_iff in H1. rewrite H1. auto.
Qed.

Ltac quiet := repeat split; try (let Q := fresh in intro Q; cbn [silentb tn_type tn_pay andb] in Q; discriminate Q).
Lemma node_gives : forall n, (forall m, in_checked m [n] -> ready m) -> forall g, 1 <= k_indent g -> gives (top_of g) n (gen_node_c env n g) (k_indent g).
Proof.
  intro n. induction n as [ty tok p c F] using tnode_ind'. intros RD g LE.
  destruct (RD (mktnode ty tok p c)) as (GD & TK & SH); [apply ic_here; now left|]. cbn [tn_type tn_child tn_pay tn_token] in SH, TK.
  assert (FC : forall top m, In m c -> forall g, 1 <= k_indent g -> top_of g = top -> gives top m (gen_node_c env m g) (k_indent g)).
  { intros top m M g0 L0 <-. rewrite Forall_forall in F. apply (F m M); [|exact L0].
    intros m' IC. apply RD. apply below_single. cbn [tn_child]. now apply (single_in _ m). }
  assert (SUB : forall g, 1 <= k_indent g -> if forallb (fineb false) c then exists t g', gen_tree_with (gen_node_c env) c g = Ok (t, g') /\ k_indent g' = k_indent g /\
    (t = None <-> existsb (fun m => negb (silentb false m)) c = false) else gen_tree_with (gen_node_c env) c g = UB).
  { intros g0 L0. apply tree_gives; [exact (FC false)|]. apply N.eqb_neq. lia. }
  assert (SUBT : forall g, k_indent g = 0 -> if forallb (fineb true) c then exists t g', gen_tree_with (gen_node_c env) c g = Ok (t, g') /\ k_indent g' = k_indent g /\
    (t = None <-> existsb (fun m => negb (silentb true m)) c = false) else gen_tree_with (gen_node_c env) c g = UB).
  { intros g0 L0. apply tree_gives; [exact (FC true)|]. now rewrite L0. }
  clear F RD FC.
  assert (LAST : forall (s : text) g', ty <> N_UNKNOWN -> exists t, (do t <- apply_debug_info env tok (get_indentation g' ++ s); Ok (Some t, g')) = Ok (Some t, g')).
  { intros s g' NU. destruct (debug_gen tok (get_indentation g' ++ s) (TK NU)) as (t & E). exists t. rewrite E. reflexivity. }
  assert (CTRL : forall w e, ty <> N_UNKNOWN -> p = XExpr e ->
    if existsb (fun m => negb (silentb false m)) c && forallb (fineb false) c then exists t g', gen_control_block_c env w p (gen_tree_with (gen_node_c env) c) g = Ok (t, g') /\ k_indent g' = k_indent g
    else gen_control_block_c env w p (gen_tree_with (gen_node_c env) c) g = UB).
  { intros w e NU ->. unfold gen_control_block_c. cbn [Model_CFile.node_expr bind]. destruct (expr_gen e g (GD e eq_refl)) as (x & ->). cbn [bind].
    specialize (SUB (note_expr env e g)). rewrite note_indent in SUB. specialize (SUB LE). destruct (forallb (fineb false) c).
    - destruct SUB as (t & g' & -> & IG & NT). cbn [bind]. rewrite andb_true_r. destruct (existsb _ c).
      + destruct t as [t|]; [|discriminate (proj1 NT eq_refl)]. cbn [str_arg bind]. eauto.
      + rewrite (proj2 NT eq_refl). reflexivity.
    - rewrite SUB, andb_false_r. reflexivity. }
  unfold gives. cbn [gen_node_c]. destruct ty; cbn [fineb];
    try (destruct (LAST (u "while (1) {}") g ltac:(discriminate)) as (t & E); cbn [bind]; rewrite E; exists (Some t), g; quiet).
  - cbn [bind]. exists None, g. quiet.
  - destruct SH as [-> |(k & e & x & v & b & -> & V & CX)]; [cbn [bind]; exists None, g; quiet|].
    unfold gen_stmt_var_def_c. rewrite (var_gen _ _ _ V). cbn [bind]. unfold top_of. destruct (k_indent g =? 1).
    + assert (SV : silentb true (mktnode N_VAR_DEF tok (XDef k e) c) = b) by (cbn [silentb tn_type tn_pay andb]; unfold constant; now rewrite (var_at_is _ _ _ V), CX).
      rewrite SV. cbn [andb]. unfold loose, constant. rewrite (var_at_is _ _ _ V), CX. unfold gen_stmt_global_var. rewrite CX. destruct b.
      * unfold gen_stmt_constexpt_global_var. destruct (expr_gen e g (GD e eq_refl)) as (t & ->). cbn [bind andb].
        destruct (v_exported v) eqn:EX; cbn [andb negb].
        -- destruct (v_const v); cbn [negb]; [|reflexivity]. destruct (link_gen k (proj1 known k x v V EX)) as (t2 & ->). cbn [bind].
           eexists None, _. split; [reflexivity|]. split; [cbn [set_globals k_indent]; apply note_indent|quiet].
        -- cbn [bind]. eexists None, _. split; [reflexivity|]. split; [cbn [set_globals k_indent]; apply note_indent|quiet].
      * cbn [andb negb]. assert (X : exists g1, (if v_exported v then do l <- linkage env k; Ok (set_globals g (old_globals g ++ [10] ++ skull_type_to_c_type (v_type v) ++ u " " ++ x ++ u " __asm__(" ++ quote ++ l ++ quote ++ u ");"))
            else Ok (set_globals g (old_globals g ++ [10] ++ u "static " ++ skull_type_to_c_type (v_type v) ++ u " " ++ x ++ u ";"))) = Ok g1 /\ k_indent g1 = k_indent g).
        { destruct (v_exported v) eqn:EX; [|eexists; split; reflexivity]. destruct (link_gen k (proj1 known k x v V EX)) as (t2 & ->). cbn [bind]. eexists; split; reflexivity. }
        destruct X as (g1 & -> & I1). cbn [bind]. unfold gen_stmt_var_assign_c_. destruct (expr_gen e g1 (GD e eq_refl)) as (t & ->). cbn [bind].
        destruct (LAST (x ++ u " = " ++ t ++ u ";") (note_expr env e g1) ltac:(discriminate)) as (t' & E). rewrite E. exists (Some t'), (note_expr env e g1).
        split; [reflexivity|]. split; [rewrite note_indent; exact I1|]. quiet.
    + cbn [andb negb]. unfold gen_stmt_stack_var. destruct (expr_gen e g (GD e eq_refl)) as (t & ->). cbn [bind].
      match goal with |- context [apply_debug_info env tok (get_indentation ?g1 ++ ?s1)] => destruct (LAST s1 g1 ltac:(discriminate)) as (t' & E) end. rewrite E.
      exists (Some t'), (note_expr env e g). split; [reflexivity|]. split; [apply note_indent|]. quiet.
  - destruct SH as (k & e & x & v & -> & V). unfold gen_stmt_var_assign_c. rewrite (var_gen _ _ _ V). cbn [bind]. unfold gen_stmt_var_assign_c_.
    destruct (expr_gen e g (GD e eq_refl)) as (t & ->). cbn [bind].
    match goal with |- context [apply_debug_info env tok (get_indentation ?g1 ++ ?s1)] => destruct (LAST s1 g1 ltac:(discriminate)) as (t' & E) end. rewrite E.
    exists (Some t'), (note_expr env e g). split; [reflexivity|]. split; [apply note_indent|]. quiet.
  - destruct SH as (k & ks & x & f & -> & V & NUM & PS & EC). unfold gen_function_def_c, gen_function_prototype_c. unfold external. rewrite (fun_at_is _ _ _ V).
    pose proof V as (y & EY & NY & KY). unfold Model_Sem.deref. rewrite EY. cbn [bind]. rewrite KY, NUM. destruct (params_gen ks None PS) as (lst & ->). cbn [bind].
    set (list := match lst with Some t => t | None => u "void" end).
    assert (X : exists fwd, (if f_export f then do l <- linkage env k; Ok (skull_type_to_c_type (f_ret f) ++ u " " ++ y_name y ++ u "(" ++ list ++ u ") __asm__(" ++ quote ++ l ++ quote ++ u ");" ++ [10]) else Ok []) = Ok fwd).
    { destruct (f_export f) eqn:EX; [|eauto]. destruct (link_gen k (proj2 known k x f V EX)) as (t2 & ->). cbn [bind]. eauto. }
    destruct X as (fwd & ->). cbn [bind]. destruct (f_external f).
    + destruct (f_export f); cbn [bind]; eexists None, _; quiet.
    + clear SUB CTRL. specialize (SUBT (set_indent g 0) eq_refl). destruct (forallb (fineb true) c).
      * destruct SUBT as (t & g' & -> & IG & NT). cbn [bind]. rewrite andb_true_r. destruct (existsb _ c).
        -- destruct t as [t|]; [|discriminate (proj1 NT eq_refl)]. cbn [str_arg bind].
           match goal with |- context [apply_debug_info env tok ?s1] => destruct (debug_gen tok s1) as (t' & ->); [apply TK; discriminate|] end. cbn [bind].
           eexists None, _. split; [reflexivity|]. split; [reflexivity|quiet].
        -- rewrite (proj2 NT eq_refl). reflexivity.
      * rewrite SUBT, andb_false_r. reflexivity.
  - destruct SH as (e & ->). unfold gen_stmt_func_call_c. cbn [Model_CFile.node_expr bind]. destruct (expr_gen e g (GD e eq_refl)) as (t & ->). cbn [bind].
    match goal with |- context [apply_debug_info env tok (get_indentation ?g1 ++ ?s1)] => destruct (LAST s1 g1 ltac:(discriminate)) as (t' & E) end. rewrite E.
    exists (Some t'), (note_expr env e g). split; [reflexivity|]. split; [apply note_indent|]. quiet.
  - destruct SH as [-> |(e & ->)]; unfold gen_stmt_return_c.
    + cbn [bind]. match goal with |- context [apply_debug_info env tok (get_indentation ?g1 ++ ?s1)] => destruct (LAST s1 g1 ltac:(discriminate)) as (t' & E) end. rewrite E.
      exists (Some t'), g. split; [reflexivity|]. split; [reflexivity|]. quiet.
    + cbn [Model_CFile.node_expr bind]. destruct (expr_gen e g (GD e eq_refl)) as (t & ->). cbn [bind].
      match goal with |- context [apply_debug_info env tok (get_indentation ?g1 ++ ?s1)] => destruct (LAST s1 g1 ltac:(discriminate)) as (t' & E) end. rewrite E.
      exists (Some t'), (note_expr env e g). split; [reflexivity|]. split; [apply note_indent|]. quiet.
  - destruct SH as (e & ->). specialize (CTRL (u "if") e ltac:(discriminate) eq_refl). destruct (_ && _).
    + destruct CTRL as (t & g' & -> & IG). cbn [bind]. destruct (LAST t g' ltac:(discriminate)) as (t' & E). rewrite E. exists (Some t'), g'. quiet; exact IG.
    + rewrite CTRL. reflexivity.
  - destruct SH as (e & ->). specialize (CTRL (u "else if") e ltac:(discriminate) eq_refl). destruct (_ && _).
    + destruct CTRL as (t & g' & -> & IG). cbn [bind]. destruct (LAST t g' ltac:(discriminate)) as (t' & E). rewrite E. exists (Some t'), g'. quiet; exact IG.
    + rewrite CTRL. reflexivity.
  - unfold gen_control_else_c. specialize (SUB g LE). destruct (forallb (fineb false) c).
    + destruct SUB as (t & g' & -> & IG & NT). cbn [bind]. rewrite andb_true_r. destruct (existsb _ c).
      * destruct t as [t|]; [|discriminate (proj1 NT eq_refl)]. cbn [str_arg bind].
        match goal with |- context [apply_debug_info env tok (get_indentation ?g1 ++ ?s1)] => destruct (LAST s1 g1 ltac:(discriminate)) as (t' & E) end. rewrite E.
        exists (Some t'), g'. quiet; exact IG.
      * rewrite (proj2 NT eq_refl). reflexivity.
    + rewrite SUB, andb_false_r. reflexivity.
  - destruct SH as (e & ->). specialize (CTRL (u "while") e ltac:(discriminate) eq_refl). destruct (_ && _).
    + destruct CTRL as (t & g' & -> & IG). cbn [bind]. destruct (LAST t g' ltac:(discriminate)) as (t' & E). rewrite E. exists (Some t'), g'. quiet; exact IG.
    + rewrite CTRL. reflexivity.
  - cbn [bind]. exists None, g. quiet.
  - destruct SH as (k & y & -> & EY). unfold gen_control_namespace_c. specialize (SUB g LE). destruct (forallb (fineb false) c).
    + destruct SUB as (t & g' & -> & IG & NT). cbn [bind]. unfold Model_Sem.deref. rewrite EY. cbn [bind]. rewrite andb_true_r. destruct (existsb _ c).
      * destruct t as [t|]; [|discriminate (proj1 NT eq_refl)]. cbn [str_arg bind].
        match goal with |- context [apply_debug_info env tok (get_indentation ?g1 ++ ?s1)] => destruct (LAST s1 g1 ltac:(discriminate)) as (t' & E) end. rewrite E.
        exists (Some t'), g'. quiet; exact IG.
      * rewrite (proj2 NT eq_refl). reflexivity.
    + rewrite SUB, andb_false_r. reflexivity.
  - cbn [bind]. exists None, g. quiet.
  - cbn [bind]. match goal with |- context [apply_debug_info env tok (get_indentation ?g1 ++ ?s1)] => destruct (LAST s1 g1 ltac:(discriminate)) as (t' & E) end. rewrite E.
    exists (Some t'), g. quiet.
  - cbn [bind]. match goal with |- context [apply_debug_info env tok (get_indentation ?g1 ++ ?s1)] => destruct (LAST s1 g1 ltac:(discriminate)) as (t' & E) end. rewrite E.
    exists (Some t'), g. quiet.
  - cbn [bind]. match goal with |- context [apply_debug_info env tok (get_indentation ?g1 ++ ?s1)] => destruct (LAST s1 g1 ltac:(discriminate)) as (t' & E) end. rewrite E.
    exists (Some t'), g. quiet.
Qed.

(** * The same, as a property of programs *)

Lemma silent_is : forall top n, silent env top n <-> silentb top n = true.
Proof.
  intros top n. unfold silent, silentb. split.
  - intros [I|[(-> & ->)|(-> & -> & k & e & x & v & -> & V & C)]]; [|reflexivity|].
    + destruct I as [<-|[<-|[<-|[<-|[]]]]]; reflexivity.
    + cbn [andb]. unfold constant. now rewrite (var_at_is _ _ _ V), C.
  - intro H. destruct (tn_type n) eqn:T; try discriminate H; try (left; cbn; tauto). right.
    destruct (tn_pay n) as [| |k e|k e|k ks|e|k]; try discriminate H; [left; auto|]. right. apply andb_prop in H as (-> & C). split; [reflexivity|]. split; [reflexivity|].
    unfold constant, var_at in C. destruct (nth_error (ce_syms env) k) as [[a b [v|f|x|x]]|] eqn:E; try discriminate C.
    exists k, e, a, v. split; [reflexivity|]. split; [exists (mksym a b (KVar v)); auto|]. destruct (v_cexpr v); [now rewrite C|discriminate C].
Qed.
Lemma loud_is : forall top l, existsb (fun m => negb (silentb top m)) l = true <-> exists m, In m l /\ ~ silent env top m.
Proof.
  intros top l. rewrite existsb_exists. split; intros (m & I & H); exists m; (split; [exact I|]).
  - intro S. apply silent_is in S. rewrite S in H. discriminate H.
  - rewrite silent_is in H. now destruct (silentb top m).
Qed.

Definition filled_node (n : tnode) : Prop :=
  (In (tn_type n) [N_IF; N_ELIF; N_ELSE; N_WHILE; N_NAMESPACE] -> exists m, In m (tn_child n) /\ ~ silent env false m) /\
  (forall k ks x f, tn_type n = N_FUNCTION_PROTO -> tn_pay n = XProto k ks -> is_fun env k x f -> f_external f = false ->
     exists m, In m (tn_child n) /\ ~ silent env true m).
Definition fixed_node (n : tnode) : Prop := forall k e x v, tn_type n = N_VAR_DEF -> tn_pay n = XDef k e ->
  is_var env k x v -> v_cexpr v = Some true -> v_exported v = true -> v_const v = true.
(** The statements of a block, and what is below it. *)
Definition good_block (top : bool) (l : list tnode) : Prop :=
  (forall n, in_checked n l -> filled_node n) /\ (top = true -> forall n, In n l -> fixed_node n) /\
  (forall m, in_checked m l -> tn_type m = N_FUNCTION_PROTO -> forall n, In n (tn_child m) -> fixed_node n).

Lemma fixed_is : forall n, tn_type n = N_VAR_DEF -> fixed_node n <-> match tn_pay n with XDef k _ => loose k = false | _ => True end.
Proof.
  intros n T. unfold fixed_node. split.
  - intro H. destruct (tn_pay n) as [| |k e|k e|k ks|e|k] eqn:P; auto. unfold loose, constant, var_at.
    destruct (nth_error (ce_syms env) k) as [[a b [v|f|x|x]]|] eqn:E; auto. destruct (v_cexpr v) as [[|]|] eqn:C; auto. destruct (v_exported v) eqn:X; auto.
    rewrite (H k e a v T eq_refl); auto. exists (mksym a b (KVar v)). auto.
  - intros H k e x v _ P V C X. rewrite P in H. unfold loose, constant in H. rewrite (var_at_is _ _ _ V), C, X in H. cbn in H. now destruct (v_const v).
Qed.

Lemma good_cons : forall top n l, good_block top (n :: l) <-> good_block top [n] /\ good_block top l.
Proof.
  intros top n l. split.
  - intros (A & B & C). split; (split; [|split]).
    + intros m M. apply A. apply (single_in _ n); [now left|exact M].
    + intros T m [<-|[]]. apply B; [exact T|now left].
    + intros m M. apply C. apply (single_in _ n); [now left|exact M].
    + intros m M. apply A. inversion M as [? I|y ? I D]; subst; [apply ic_here; now right|apply (ic_below _ y); [now right|exact D]].
    + intros T m M. apply B; [exact T|now right].
    + intros m M. apply C. inversion M as [? I|y ? I D]; subst; [apply ic_here; now right|apply (ic_below _ y); [now right|exact D]].
  - intros ((A & B & C) & (A' & B' & C')). split; [|split].
    + intros m M. apply checked_cons in M as [M|M]; [now apply A|now apply A'].
    + intros T m [<-|M]; [apply B; [exact T|now left]|now apply B'].
    + intros m M. apply checked_cons in M as [M|M]; [exact (C m M)|exact (C' m M)].
Qed.

Lemma block_is : forall l, (forall n, In n l -> forall top, fineb top n = true <-> good_block top [n]) -> forall top, forallb (fineb top) l = true <-> good_block top l.
Proof.
  induction l as [|n l IH]; intros F top.
  - split; [|reflexivity]. intros _. split; [|split]; [intros n H; destruct (nothing_below n H)|intros _ n []|intros n H; destruct (nothing_below n H)].
  - cbn [forallb]. rewrite andb_true_iff, good_cons, (F n (or_introl eq_refl) top), IH; [reflexivity|]. intros m M. apply F. now right.
Qed.

Lemma node_is : forall n, (forall m, in_checked m [n] -> ready m /\ shape env m) -> forall top, fineb top n = true <-> good_block top [n].
Proof.
  intro n. induction n as [ty tok p c F] using tnode_ind'. intros RD top. set (n := mktnode ty tok p c).
  assert (CH : forall top, forallb (fineb top) c = true <-> good_block top c).
  { apply block_is. intros m M. rewrite Forall_forall in F. apply (F m M). intros m' IC. apply RD. apply below_single. cbn [tn_child]. now apply (single_in _ m). }
  destruct (RD n) as ((_ & _ & RY) & (_ & SH)); [apply ic_here; now left|].
  assert (ONE : good_block top [n] <-> filled_node n /\ (top = true -> fixed_node n) /\ good_block (match ty with N_FUNCTION_PROTO => true | _ => false end) c).
  { split.
    - intros (A & B & C). split; [apply A; apply ic_here; now left|]. split; [intro T; apply B; [exact T|now left]|]. split; [|split].
      + intros m M. apply A. now apply below_single.
      + intros T m M. apply (C n); [apply ic_here; now left| |exact M]. cbn [tn_type n]. now destruct ty.
      + intros m M. apply C. now apply below_single.
    - intros (A & B & (A' & B' & C')). split; [|split].
      + intros m M. apply here_or_below in M as [-> |M]; auto.
      + intros T m [<-|[]]. now apply B.
      + intros m M T k K. apply here_or_below in M as [-> |M]; [|exact (C' m M T k K)]. apply B'; [cbn [tn_type n] in T; now rewrite T|exact K]. }
  rewrite ONE. clear ONE F RD. unfold n in *. cbn [tn_type tn_pay tn_child] in SH, RY. unfold filled_node. cbn [tn_type tn_pay tn_child].
  assert (NOF : ty <> N_VAR_DEF -> fixed_node (mktnode ty tok p c)) by (intros T k e x v T'; cbn [tn_type] in T'; congruence).
  assert (FILL : In ty [N_IF; N_ELIF; N_ELSE; N_WHILE; N_NAMESPACE] ->
    (existsb (fun m => negb (silentb false m)) c && forallb (fineb false) c = true <->
     ((In ty [N_IF; N_ELIF; N_ELSE; N_WHILE; N_NAMESPACE] -> exists m, In m c /\ ~ silent env false m) /\
      (forall k ks x f, ty = N_FUNCTION_PROTO -> p = XProto k ks -> is_fun env k x f -> f_external f = false -> exists m, In m c /\ ~ silent env true m)) /\
     (top = true -> fixed_node (mktnode ty tok p c)) /\ good_block false c)).
  { intro I. rewrite andb_true_iff, loud_is, CH. split.
    - intros (A & B). split; [split; [auto|]|split; [|exact B]].
      + intros k ks x f ->. cbn in I. repeat (destruct I as [I|I]; [discriminate I|]). destruct I.
      + intros _. apply NOF. intros ->. cbn in I. repeat (destruct I as [I|I]; [discriminate I|]). destruct I.
    - intros ((A & _) & _ & B). split; [now apply A|exact B]. }
  assert (LEAF : ~ In ty [N_IF; N_ELIF; N_ELSE; N_WHILE; N_NAMESPACE] -> ty <> N_FUNCTION_PROTO -> ty <> N_VAR_DEF -> c = [] -> true = true <->
     ((In ty [N_IF; N_ELIF; N_ELSE; N_WHILE; N_NAMESPACE] -> exists m, In m c /\ ~ silent env false m) /\
      (forall k ks x f, ty = N_FUNCTION_PROTO -> p = XProto k ks -> is_fun env k x f -> f_external f = false -> exists m, In m c /\ ~ silent env true m)) /\
     (top = true -> fixed_node (mktnode ty tok p c)) /\ good_block false c).
  { intros NI NF ND ->. split; [|reflexivity]. intros _. split; [split; [now intro I|congruence]|]. split; [intros _; now apply NOF|].
    apply CH. reflexivity. }
  destruct ty; cbn [fineb]; try (apply FILL; cbn; tauto); try (apply LEAF; [cbn; intuition discriminate|discriminate|discriminate|apply SH]).
  - split.
    + intro H. split; [split; [cbn; intuition discriminate|congruence]|]. split; [|apply CH; rewrite SH; reflexivity].
      intro T. apply fixed_is; [reflexivity|]. cbn [tn_pay]. rewrite T in H. destruct p; auto. now apply negb_true_iff in H.
    + intros (_ & FX & _). destruct p as [| |k e|k e|k ks|e|k] eqn:P; auto. apply negb_true_iff. destruct top; [|reflexivity].
      exact (proj1 (fixed_is (mktnode N_VAR_DEF tok (XDef k e) c) eq_refl) (FX eq_refl)).
  - destruct RY as (k & ks & x & f & -> & V & _ & _ & EC). unfold external. rewrite (fun_at_is _ _ _ V). destruct (f_external f) eqn:EX.
    + specialize (EC eq_refl). split; [|reflexivity]. intros _. split; [split; [cbn; intuition discriminate|]|].
      * intros k' ks' x' f' _ P V' EX'. assert (k = k') as <- by congruence. pose proof (fun_at_is _ _ _ V) as F1. rewrite (fun_at_is _ _ _ V') in F1. congruence.
      * split; [intros _; now apply NOF|]. apply CH. now rewrite EC.
    + rewrite andb_true_iff, loud_is, CH. split.
      * intros (A & B). split; [split; [cbn; intuition discriminate|]|].
        -- intros k' ks' x' f' _ P V' EX'. exact A.
        -- split; [intros _; now apply NOF|exact B].
      * intros ((_ & A) & _ & B). split; [exact (A k ks x f eq_refl eq_refl V EX)|exact B].
Qed.
End Written.

(** Statements at the top of the program or of a function. *)
Inductive at_top (n : tnode) (l : list tnode) : Prop :=
| tp_program : In n l -> at_top n l
| tp_function : forall m, in_checked m l -> tn_type m = N_FUNCTION_PROTO -> In n (tn_child m) -> at_top n l.
(** Exported variables that are initialised by a constant cannot be changed. *)
Definition exports_fixed (env : cctx) (l : list tnode) : Prop := forall n k e x v, at_top n l -> tn_type n = N_VAR_DEF -> tn_pay n = XDef k e ->
  is_var env k x v -> v_cexpr v = Some true -> v_exported v = true -> v_const v = true.

Lemma filled_good : forall env l, good_block env true l <-> filled env l /\ exports_fixed env l.
Proof.
  intros env l. split.
  - intros (A & B & C). split; [exact A|]. intros n k e x v [I|m M T I]; [exact (B eq_refl n I k e x v)|exact (C m M T n I k e x v)].
  - intros (A & B). split; [exact A|]. split.
    + intros _ n I k e x v. apply B. now apply tp_program.
    + intros m M T n I k e x v. apply B. now apply (tp_function _ _ m).
Qed.

Lemma accepted_ready : forall w src ts tree s l env c23, accepted w src ts tree s l -> no_call_blocks tree -> few_arguments tree -> ce_syms env = s_syms s -> writable c23 env l ->
  forall n, in_checked n l -> ready env n /\ shape env n.
Proof.
  intros w src ts tree s l env c23 A NC FA ES W x C. destruct (accepted_nodes _ _ _ _ _ _ env c23 A NC FA ES W) as (_ & ND).
  destruct (ND x C) as (((GD & NUM & _) & _) & SH). split; [|exact SH]. destruct W as (_ & _ & _ & _ & WX).
  pose proof (accepted_named _ _ _ _ _ _ A) as NM. destruct (final_symbols _ _ _ _ _ _ A NC FA) as (s1 & e & EQ & RD & B).
  destruct (checked_paired _ _ _ _ _ C _ _ _ B) as (n & P). destruct (located _ _ _ _ _ _ _ P _ _ B) as (en & en' & S0 & _). specialize (NM n x P).
  assert (IT : in_tree n tree) by exact (paired_in _ _ _ _ P). destruct A as ((ms & PA) & _). destruct (parsed_of _ _ _ PA) as (_ & _ & FN & _).
  destruct (FN n IT) as (_ & _ & _ & TK). clear FN PA P IT.
  assert (EV : forall k t m, sig s1 k = Some (DVar t m) -> exists x v, is_var env k x v).
  { intros k t m E. unfold sig in E. rewrite <- EQ, <- ES in E. destruct (nth_error (ce_syms env) k) as [[a b [v|f|z|z]]|] eqn:N1; cbn [y_kind] in E; try discriminate E.
    - exists a, v, (mksym a b (KVar v)). auto.
    - destruct (_ =? _); discriminate E.
    - destruct z; discriminate E. }
  assert (EF : forall k t m, sig s1 k = Some (DFun t m) -> exists x f, is_fun env k x f).
  { intros k t m E. unfold sig in E. rewrite <- EQ, <- ES in E. destruct (nth_error (ce_syms env) k) as [[a b [v|f|z|z]]|] eqn:N1; cbn [y_kind] in E; try discriminate E.
    - exists a, f, (mksym a b (KFunc f)). auto.
    - destruct z; discriminate E. }
  assert (EN : forall k d, sig s1 k = Some d -> exists y, nth_error (ce_syms env) k = Some y).
  { intros k d E. unfold sig in E. rewrite <- EQ, <- ES in E. destruct (nth_error (ce_syms env) k) as [y|]; [eauto|discriminate E]. }
  split; [exact GD|]. assert (TT : tn_type x = n_type n /\ tn_token x = n_token n) by (clear - S0; inversion S0; subst; cbn [tn_type tn_token]; auto; split; congruence).
  destruct TT as (T1 & T2). split; [rewrite T1, T2; exact TK|]. specialize (NUM). clear T1 T2 TK GD SH.
  inversion S0; subst x; cbn [tn_type tn_pay tn_child] in *.
  - right. unfold named in NM. cbn [tn_pay] in NM. destruct NM as (t9 & r9 & e9 & i9 & c9 & z9 & _ & _ & sy & v0 & N1 & K1 & CX & _). rewrite <- ES in N1. exists k, y, (y_name sy), v0, (x_cexpr y).
    split; [reflexivity|]. split; [exists sy; auto|exact CX].
  - now left.
  - destruct (EV _ _ _ ltac:(eassumption)) as (nm & v0 & V). eauto 6.
  - eauto.
  - eauto.
  - match goal with E : In (n_type n) _ |- _ => destruct E as [<-|[<-|[<-|[]]]]; eauto end.
  - exact I.
  - destruct (EF _ _ _ ltac:(eassumption)) as (nm & f & V). exists k, ks, nm, f. split; [reflexivity|]. split; [exact V|].
    split; [exact (proj1 (NUM k ks nm f eq_refl V))|]. split.
    + match goal with E : params_ok _ _ _ _ _ _ _ |- _ => clear - E EV; induction E as [|e p ps t ts' n0 k0 ks e' _ _ _ DK _ IH]; constructor; eauto end.
    + intro EX. exact (WX _ k ks nm f C eq_refl V EX).
  - destruct (EN _ _ ltac:(eassumption)) as (y & E). eauto.
  - match goal with E : In (n_type n) _ |- _ => repeat (destruct E as [<-|E]; [auto|]); destruct E end.
Qed.

(** The parser knows `mut` or `export` in front of a definition, but not both. *)
Lemma exports_are_fixed : forall w src ts tree s l env, accepted w src ts tree s l -> no_call_blocks tree -> few_arguments tree -> ce_syms env = s_syms s -> exports_fixed env l.
Proof.
  intros w src ts tree s l env A NC FA ES x k e nm v AT T PX V _ EX.
  assert (C : in_checked x l) by (destruct AT as [I|m M _ I]; [now apply ic_here|]; clear - I M; induction M as [l J|y l J M IH]; [apply (ic_below _ m); [exact J|now apply ic_here]|now apply (ic_below _ y)]).
  pose proof (accepted_named _ _ _ _ _ _ A) as NM. destruct (final_symbols _ _ _ _ _ _ A NC FA) as (s1 & e0 & EQ & RD & B).
  destruct (checked_paired _ _ _ _ _ C _ _ _ B) as (n & P). destruct (located _ _ _ _ _ _ _ P _ _ B) as (en & en' & S0 & _). specialize (NM n x P).
  unfold named in NM. rewrite PX in NM. destruct NM as (t9 & r9 & e9 & i9 & c9 & z9 & PN & _ & sy & v0 & N1 & K1 & _ & _ & V1 & V2).
  destruct V as (y & N2 & _ & K2). rewrite ES in N2. assert (sy = y) as -> by congruence. assert (v0 = v) as -> by congruence.
  assert (IT : in_tree n tree) by exact (paired_in _ _ _ _ P). destruct A as ((ms & PA) & _). destruct (parsed_of _ _ _ PA) as (_ & _ & FN & _).
  destruct (FN n IT) as (_ & WR & _). unfold written in WR.
  assert (TT : n_type n = N_VAR_DEF) by (rewrite <- T; clear - S0; inversion S0; subst; cbn [tn_type]; auto). rewrite TT in WR.
  destruct WR as (name & e8 & i8 & c8 & x8 & PN' & mods & _ & MS & M1 & M2 & _). assert (c8 = c9 /\ x8 = z9) as (-> & ->) by (split; congruence).
  rewrite V1, V2 in *. subst z9 c9. unfold modifiers, modifier in *. destruct (v_const v); [reflexivity|].
  destruct (proj1 M1 eq_refl) as (m1 & E1 & T1). destruct (proj1 M2 eq_refl) as (m2 & E2 & T2). congruence.
Qed.
Theorem c_files_l : forall w src ts tree s l env c23 m, accepted w src ts tree s l -> no_call_blocks tree -> few_arguments tree -> ce_syms env = s_syms s ->
  writable c23 env l -> labels_known env -> has_base (ce_file env) (m ++ u ".sk") -> nz m -> Spec_Names.fits m ->
  (exists t, c_file env l = Ok t) <-> filled env l.
Proof.
  intros w src ts tree s l env c23 m A NC FA ES W LK HB NZ FI. pose proof (exports_are_fixed _ _ _ _ _ _ env A NC FA ES) as XF.
  assert (FE : filled env l <-> filled env l /\ exports_fixed env l) by tauto. rewrite FE. clear FE XF. pose proof (accepted_ready _ _ _ _ _ _ env c23 A NC FA ES W) as RD.
  rewrite <- filled_good, <- (block_is env).
  - pose proof (tree_gives env true l setup_c_state) as G. unfold c_file, gen_tree_c.
    destruct (forallb (fineb env true) l).
    + destruct G as (t & g & -> & _); [|reflexivity|].
      * intros n I g L <-. apply node_gives; [exact LK| |exact L]. intros q Q. apply RD. now apply (single_in _ n).
      * cbn [bind]. rewrite (main_name_ok _ _ HB NZ FI). cbn [bind]. split; [reflexivity|eauto].
    + rewrite G; [|intros n I g L <-; apply node_gives; [exact LK| |exact L]; intros q Q; apply RD; now apply (single_in _ n)|reflexivity].
      split; [intros (t & E); discriminate E|discriminate].
  - intros n I. apply node_is. intros q Q. apply RD. now apply (single_in _ n).
Qed.
