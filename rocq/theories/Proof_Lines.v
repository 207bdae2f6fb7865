(** Debug builds only add line directives to C files. *)
From Coq Require Import List Arith NArith ZArith Bool Lia Ascii String.
From Verif Require Import Base Model_Token Model_Literal Model_Parse Model_Sem Spec_Sem Spec_Sem2 Model_Names Model_CGen Model_CFile Spec_C Spec_CGen Proof_CGen Proof_CGen2 Proof_CProg3 Proof_Sem8 Spec_Lines.
Import ListNotations.
Open Scope list_scope.
Open Scope N_scope.

Section Lines.
Variable env : cctx.
Let D := with_debug true env.
Let P := with_debug false env.
Let file := ce_file env.
Let ys := ce_syms env.
Local Notation mk := (marked file).
(** At the start of a line. *)
Definition at_start (ns : list N) (d p : text) : Prop := mk ns (10 :: d) (10 :: p).
Definition opt_marked (ns : list N) (d p : option text) : Prop :=
  match d, p with None, None => ns = [] | Some d, Some p => at_start ns d p | _, _ => False end.

Lemma mk_same_app : forall ns t d p, mk ns d p -> mk ns (t ++ d) (t ++ p).
Proof. intros ns t d p H. exact (mk_app _ [] ns _ _ _ _ (mk_same _ t) H). Qed.
Lemma mk_app_same : forall ns t d p, mk ns d p -> mk ns (d ++ t) (p ++ t).
Proof. intros ns t d p H. rewrite <- (app_nil_r ns). exact (mk_app _ ns [] _ _ _ _ H (mk_same _ t)). Qed.
Lemma start_same : forall t, at_start [] t t.
Proof. intro t. apply mk_same. Qed.
Lemma start_join : forall ms ns d e p q, at_start ms d p -> at_start ns e q -> at_start (ms ++ ns) (d ++ [10] ++ e) (p ++ [10] ++ q).
Proof. intros ms ns d e p q H K. exact (mk_app _ ms ns (10 :: d) (10 :: e) (10 :: p) (10 :: q) H K). Qed.
Lemma start_more : forall ns d p t, at_start ns d p -> at_start ns (d ++ t) (p ++ t).
Proof. intros ns d p t H. exact (mk_app_same _ t _ _ H). Qed.

Lemma fmt_value : forall n, fmt_li (Z.of_N n) <> [] /\ c_digits 10 0 (fmt_li (Z.of_N n)) = Some n.
Proof.
  intro n. unfold fmt_li. destruct (Z.ltb_spec (Z.of_N n) 0) as [L|L]; [lia|]. rewrite N2Z.id. split.
  - intro E. pose proof (digits_value 10 n ltac:(lia)) as V. unfold digits in E.
    destruct (N.eq_dec n 0) as [->|NZ]; [discriminate E|]. unfold digits in V. rewrite E in V. cbn in V. injection V as V. congruence.
  - apply digits_value. lia.
Qed.
Lemma a_directive : forall n t, directive file n t -> forall ns d p, mk ns d p -> at_start (n :: ns) (t ++ d) p.
Proof. intros n t X ns d p H. exact (mk_app _ [n] ns (10 :: t) d [10] p (mk_line _ n t X) H). Qed.

Lemma debug_marks : forall tok d t' p ns, apply_debug_info D tok d = Ok t' -> mk ns d p ->
  apply_debug_info P tok p = Ok p /\ at_start (own_line tok ++ ns) t' p.
Proof.
  intros tok d t' p ns H M. split; [reflexivity|]. unfold apply_debug_info in H. cbn [D with_debug ce_debug ce_file] in H.
  destruct tok as [|k tok]; [discriminate H|]. apply ok_inj in H. subst t'. cbn [own_line app].
  destruct (fmt_value (l_line (t_loc k))) as (N1 & N2).
  pose proof (a_directive _ _ (di_line file _ _ N1 N2) _ _ _ M) as X. rewrite <- !app_assoc in X. exact X.
Qed.

(** * States *)
Definition with_globals (g : cst) (o : option text) : cst := mkcst o (k_int_pow g) (k_float_pow g) (k_strcmp g) (k_indent g).
Definition states (ns : list N) (g h : cst) : Prop := exists o, h = with_globals g o /\ opt_marked ns (k_globals g) o.

Lemma gen_expr_env : forall x, gen_expr_c P x = gen_expr_c D x.
Proof.
  intro x. induction x as [t k ty c|t v ty|t k args ty F|o r ty c IH|o l r ty c IHl IHr] using texpr_ind'; cbn [gen_expr_c]; try reflexivity.
  - change (ce_syms P) with (ce_syms D). destruct (deref (ce_syms D) k) as [y|]; [|reflexivity]. cbn [bind]. destruct (y_kind y) as [v|f|z|z]; try reflexivity.
    destruct (f_num f =? 0); [reflexivity|]. f_equal. generalize (N.to_nat (f_num f)) (@None text). 
    induction F as [|a args H F IH]; intros [|m] acc; cbn [args_loop]; try reflexivity. rewrite H. destruct (gen_expr_c D a) as [x|]; [|reflexivity]. cbn [bind]. apply IH.
  - now rewrite IH.
  - now rewrite IHl, IHr.
Qed.
Lemma note_env : forall x g o, note_expr P x (with_globals g o) = with_globals (note_expr D x g) o.
Proof.
  assert (NB : forall p l t g o, note_binary p l t (with_globals g o) = with_globals (note_binary p l t g) o).
  { intros p l t g o. destruct p; cbn [note_binary]; try (destruct (ty_eqb l TStr)); try (destruct (ty_eqb t TInt)); try (destruct (ty_eqb t TFloat)); reflexivity. }
  intro x. induction x as [t k ty c|t v ty|t k args ty F|p r ty c IH|p l r ty c IHl IHr] using texpr_ind'; intros g o; cbn [note_expr]; auto.
  - change (ce_syms P) with (ce_syms D). destruct (nth_error (ce_syms D) k) as [[a b [v|f|z|z]]|]; try reflexivity. generalize (N.to_nat (f_num f)). intro m. revert m g.
    induction F as [|a0 args H F IH]; intros m g; [destruct m; reflexivity|]. destruct m as [|m]; [reflexivity|]. rewrite H. apply IH.
  - now rewrite NB, IHl, IHr.
Qed.
Lemma expr_marks : forall e g h ns x g', states ns g h -> expr_c D e g = Ok (x, g') ->
  exists h', expr_c P e h = Ok (x, h') /\ states ns g' h' /\ k_indent g' = k_indent g.
Proof.
  intros e g h ns x g' (o & -> & M) H. unfold expr_c in *. rewrite gen_expr_env. apply bind_some in H as (t & -> & H). cbn [bind].
  assert (t = x /\ note_expr D e g = g') as (-> & <-) by (split; congruence). rewrite note_env. eexists. split; [reflexivity|].
  destruct (note_keeps D e g) as (K1 & K2). split; [|exact K2]. exists o. split; [reflexivity|]. now rewrite K1.
Qed.
Lemma states_indent : forall ns g h, states ns g h -> k_indent h = k_indent g.
Proof. intros ns g h (o & -> & _). reflexivity. Qed.
Lemma states_set : forall ns g h i, states ns g h -> states ns (set_indent g i) (set_indent h i).
Proof. intros ns g h i (o & -> & M). exists o. split; [reflexivity|exact M]. Qed.
Lemma states_tabs : forall ns g h, states ns g h -> get_indentation h = get_indentation g.
Proof. intros ns g h (o & -> & _). reflexivity. Qed.
(** A line of its own in the globals. *)
Lemma states_line : forall ns g h t, states ns g h -> states ns (set_globals g (old_globals g ++ [10] ++ t)) (set_globals h (old_globals h ++ [10] ++ t)).
Proof.
  intros ns g h t (o & -> & M). eexists. split; [reflexivity|]. cbn [set_globals with_globals k_globals opt_marked old_globals].
  destruct (k_globals g) as [d|] eqn:E; destruct o as [p|]; cbn [opt_marked] in M; try contradiction; unfold old_globals; cbn [with_globals k_globals]; rewrite ?E.
  - now apply start_more.
  - subst ns. apply start_same.
Qed.

(** * Statements *)

Definition plain_result (ns : list N) (i : N) (r : res (text * cst)) (t : text) (g' : cst) : Prop :=
  exists h', r = Ok (t, h') /\ states ns g' h' /\ k_indent g' = i.

Lemma assign_marks : forall name e g h ns t g', states ns g h -> gen_stmt_var_assign_c_ D name e g = Ok (t, g') ->
  plain_result ns (k_indent g) (gen_stmt_var_assign_c_ P name e h) t g'.
Proof.
  intros name e g h ns t g' S H. unfold gen_stmt_var_assign_c_ in *. apply bind_some in H as ((x, g1) & H1 & H).
  destruct (expr_marks _ _ _ _ _ _ S H1) as (h1 & E & S1 & K). rewrite E. cbn [bind]. apply ok_inj in H. injection H as <- <-. exists h1. auto.
Qed.
Lemma call_marks : forall p g h ns t g', states ns g h -> gen_stmt_func_call_c D p g = Ok (t, g') -> plain_result ns (k_indent g) (gen_stmt_func_call_c P p h) t g'.
Proof.
  intros p g h ns t g' S H. unfold gen_stmt_func_call_c in *. apply bind_some in H as (e & -> & H). cbn [bind]. apply bind_some in H as ((x, g1) & H1 & H).
  destruct (expr_marks _ _ _ _ _ _ S H1) as (h1 & E & S1 & K). rewrite E. cbn [bind]. apply ok_inj in H. injection H as <- <-. exists h1. auto.
Qed.
Lemma return_marks : forall p g h ns t g', states ns g h -> gen_stmt_return_c D p g = Ok (t, g') -> plain_result ns (k_indent g) (gen_stmt_return_c P p h) t g'.
Proof.
  intros p g h ns t g' S H. unfold gen_stmt_return_c in *.
  destruct p; try (apply ok_inj in H; injection H as <- <-; exists h; now auto);
    (apply bind_some in H as (e0 & E0 & H); rewrite E0; cbn [bind]; apply bind_some in H as ((x, g1) & H1 & H);
     destruct (expr_marks _ _ _ _ _ _ S H1) as (h1 & E & S1 & K); rewrite E; cbn [bind]; apply ok_inj in H; injection H as <- <-; exists h1; now auto).
Qed.
Lemma stack_marks : forall name v e g h ns t g', states ns g h -> gen_stmt_stack_var D name v e g = Ok (t, g') ->
  plain_result ns (k_indent g) (gen_stmt_stack_var P name v e h) t g'.
Proof.
  intros name v e g h ns t g' S H. unfold gen_stmt_stack_var in *. apply bind_some in H as ((x, g1) & H1 & H).
  destruct (expr_marks _ _ _ _ _ _ S H1) as (h1 & E & S1 & K). rewrite E. cbn [bind]. apply ok_inj in H. injection H as <- <-. exists h1. auto.
Qed.
Lemma def_marks : forall k e g h ns t g', states ns g h -> gen_stmt_var_def_c D k e g = Ok (t, g') ->
  exists h', gen_stmt_var_def_c P k e h = Ok (t, h') /\ states ns g' h' /\ k_indent g' = k_indent g /\
    (t = None <-> (k_indent g =? 1) && constant_var ys k = true).
Proof.
  intros k e g h ns t g' S H. unfold gen_stmt_var_def_c in *. rewrite (states_indent _ _ _ S).
  apply bind_some in H as ((name, v) & HV & H). change (sym_var_c P k) with (sym_var_c D k). rewrite HV. cbn [bind].
  assert (C : constant_var ys k = match v_cexpr v with Some b => b | None => false end).
  { unfold sym_var_c in HV. apply bind_some in HV as (y & Y & HV). unfold deref in Y. cbn [D with_debug ce_syms] in Y. unfold constant_var, ys.
    destruct (nth_error (ce_syms env) k) as [[a b c]|]; [|discriminate Y]. apply ok_inj in Y. subst y. cbn [y_kind] in HV. destruct c; try discriminate HV. apply ok_inj in HV. injection HV as _ <-. reflexivity. }
  destruct (k_indent g =? 1).
  - unfold gen_stmt_global_var in *. rewrite C. destruct (v_cexpr v) as [[]|]; [| |discriminate H].
    + apply bind_some in H as (g1 & H1 & H). apply ok_inj in H. injection H as <- <-. unfold gen_stmt_constexpt_global_var in *.
      apply bind_some in H1 as ((x, g2) & H2 & H1). destruct (expr_marks _ _ _ _ _ _ S H2) as (h2 & E & S2 & K). rewrite E. cbn [bind].
      destruct (v_exported v).
      * destruct (v_const v); [|discriminate H1]. apply bind_some in H1 as (l & L & H1). change (linkage P k) with (linkage D k). rewrite L. cbn [bind]. apply ok_inj in H1. subst g1.
        eexists. split; [reflexivity|]. split; [now apply states_line|]. split; [exact K|]. split; reflexivity.
      * apply ok_inj in H1. subst g1. cbn [bind]. eexists. split; [reflexivity|]. split; [now apply states_line|]. split; [exact K|]. split; reflexivity.
    + apply bind_some in H as (g1 & H1 & H). apply bind_some in H as ((x, g2) & H2 & H). apply ok_inj in H. injection H as <- <-.
      assert (X : exists h1, (if v_exported v then do l <- linkage P k; Ok (set_globals h (old_globals h ++ [10] ++ skull_type_to_c_type (v_type v) ++ u " " ++ name ++ u " __asm__(" ++
                                    quote ++ l ++ quote ++ u ");"))
               else Ok (set_globals h (old_globals h ++ [10] ++ u "static " ++ skull_type_to_c_type (v_type v) ++ u " " ++ name ++ u ";"))) = Ok h1 /\ states ns g1 h1 /\ k_indent g1 = k_indent g).
      { destruct (v_exported v).
        - apply bind_some in H1 as (l & L & H1). change (linkage P k) with (linkage D k). rewrite L. cbn [bind]. apply ok_inj in H1. subst g1. eexists. split; [reflexivity|]. split; [now apply states_line|reflexivity].
        - apply ok_inj in H1. subst g1. eexists. split; [reflexivity|]. split; [now apply states_line|reflexivity]. }
      destruct X as (h1 & -> & S1 & K1). cbn [bind]. destruct (assign_marks _ _ _ _ _ _ _ S1 H2) as (h2 & -> & S2 & K2). cbn [bind].
      exists h2. split; [reflexivity|]. split; [exact S2|]. split; [congruence|]. split; discriminate.
  - apply bind_some in H as ((x, g1) & H1 & H). apply ok_inj in H. injection H as <- <-. destruct (stack_marks _ _ _ _ _ _ _ _ S H1) as (h1 & -> & S1 & K). cbn [bind].
    exists h1. split; [reflexivity|]. split; [exact S1|]. split; [exact K|]. split; discriminate.
Qed.

(** * Blocks *)

Definition node_marked (n : tnode) : Prop := forall g h ns t g', states ns g h -> 1 <= k_indent g -> gen_node_c D n g = Ok (t, g') ->
  exists t' h', gen_node_c P n h = Ok (t', h') /\ states (ns ++ snd (line_marks ys (k_indent g =? 1) n)) g' h' /\ k_indent g' = k_indent g /\
    opt_marked (fst (line_marks ys (k_indent g =? 1) n)) t t'.
Definition marks_of (top : bool) (l : list tnode) : list N := List.concat (map (fun n => fst (line_marks ys top n)) l).
Definition inner_of (top : bool) (l : list tnode) : list N := List.concat (map (fun n => snd (line_marks ys top n)) l).

Lemma loop_marks : forall l, (forall n, In n l -> node_marked n) -> forall acc acc' as' g h ns t g', states ns g h -> 1 <= k_indent g -> opt_marked as' acc acc' ->
  tree_loop_c (gen_node_c D) l acc g = Ok (t, g') ->
  exists t' h', tree_loop_c (gen_node_c P) l acc' h = Ok (t', h') /\ states (ns ++ inner_of (k_indent g =? 1) l) g' h' /\ k_indent g' = k_indent g /\
    opt_marked (as' ++ marks_of (k_indent g =? 1) l) t t'.
Proof.
  induction l as [|n l IH]; intros F acc acc' as' g h ns t g' S I A H; cbn [tree_loop_c] in *.
  - apply ok_inj in H. injection H as <- <-. exists acc', h. unfold inner_of, marks_of. cbn. rewrite !app_nil_r. auto.
  - apply bind_some in H as ((t1, g1) & H1 & H). destruct (F n (or_introl eq_refl) _ _ _ _ _ S I H1) as (t2 & h1 & -> & S1 & K1 & O1). cbn [bind].
    assert (A1 : opt_marked (as' ++ fst (line_marks ys (k_indent g =? 1) n))
      (match t1, acc with Some t1, Some old => Some (old ++ [10] ++ t1) | Some t1, None => Some t1 | None, _ => acc end)
      (match t2, acc' with Some t1, Some old => Some (old ++ [10] ++ t1) | Some t1, None => Some t1 | None, _ => acc' end)).
    { destruct t1 as [t1|], t2 as [t2|]; cbn [opt_marked] in O1; try contradiction.
      - destruct acc as [a|], acc' as [a'|]; cbn [opt_marked] in A; try contradiction; cbn [opt_marked]; [now apply start_join|]. subst as'. exact O1.
      - rewrite O1, app_nil_r. exact A. }
    assert (I1 : 1 <= k_indent g1) by now rewrite K1.
    destruct (IH (fun m M => F m (or_intror M)) _ _ _ _ _ _ _ _ S1 I1 A1 H) as (t3 & h2 & E & S2 & K2 & O2). rewrite K1 in *.
    exists t3, h2. split; [exact E|]. unfold inner_of, marks_of in *. cbn [map List.concat]. rewrite !app_assoc. auto.
Qed.
Lemma tree_marks : forall l, (forall n, In n l -> node_marked n) -> forall g h ns t g', states ns g h ->
  gen_tree_with (gen_node_c D) l g = Ok (t, g') ->
  exists t' h', gen_tree_with (gen_node_c P) l h = Ok (t', h') /\ states (ns ++ inner_of (k_indent g =? 0) l) g' h' /\ k_indent g' = k_indent g /\
    opt_marked (marks_of (k_indent g =? 0) l) t t'.
Proof.
  intros l F g h ns t g' S H. unfold gen_tree_with in *. apply bind_some in H as ((t1, g1) & H1 & H). apply ok_inj in H. injection H as <- <-.
  destruct (loop_marks l F None None [] _ _ _ _ _ (states_set _ _ _ (k_indent g + 1) S) ltac:(cbn [set_indent k_indent]; lia) eq_refl H1) as (t' & h1 & E & S1 & K & O).
  rewrite (states_indent _ _ _ S), E. cbn [bind]. cbn [set_indent k_indent] in *.
  replace (k_indent g + 1 =? 1) with (k_indent g =? 0) in * by (destruct (N.eqb_spec (k_indent g) 0), (N.eqb_spec (k_indent g + 1) 1); lia).
  exists t', (set_indent h1 (k_indent h1 - 1)). split; [reflexivity|]. rewrite (states_indent _ _ _ S1). split; [now apply states_set|]. split; [rewrite K; lia|exact O].
Qed.

(** A block between braces. *)
Lemma braces : forall ns d p a z, at_start ns d p -> mk ns (a ++ [10] ++ d ++ z) (a ++ [10] ++ p ++ z).
Proof. intros ns d p a z H. apply mk_same_app. exact (mk_app_same _ z _ _ H). Qed.
Lemma opt_some : forall ns t t' x, opt_marked ns t t' -> str_arg t = Ok x -> exists p, str_arg t' = Ok p /\ at_start ns x p.
Proof. intros ns [t|] [t'|] x O E; try discriminate E; try contradiction. apply ok_inj in E. subst x. exists t'. auto. Qed.

Lemma ok_pair : forall (A B : Type) (a c : A) (b d : B), Ok (a, b) = Ok (c, d) -> a = c /\ b = d.
Proof. intros A B a c b d E. split; congruence. Qed.

Definition block_result (l : list tnode) (ns : list N) (g : cst) (r : res (text * cst)) (t : text) (g' : cst) : Prop :=
  exists t' h', r = Ok (t', h') /\ states (ns ++ inner_of false l) g' h' /\ k_indent g' = k_indent g /\ mk (marks_of false l) t t'.

Lemma else_marks : forall l, (forall n, In n l -> node_marked n) -> forall g h ns t g', states ns g h -> 1 <= k_indent g ->
  gen_control_else_c (gen_tree_with (gen_node_c D) l) g = Ok (t, g') -> block_result l ns g (gen_control_else_c (gen_tree_with (gen_node_c P) l) h) t g'.
Proof.
  intros l F g h ns t g' S I H. unfold gen_control_else_c in *. apply bind_some in H as ((t1, g1) & H1 & H). apply bind_some in H as (x & X & H). apply ok_pair in H as (<- & <-).
  destruct (tree_marks l F _ _ _ _ _ S H1) as (t2 & h1 & -> & S1 & K & O). cbn [bind]. destruct (opt_some _ _ _ _ O X) as (p & -> & M). cbn [bind].
  replace (k_indent g =? 0) with false in * by (symmetry; apply N.eqb_neq; lia). rewrite (states_tabs _ _ _ S1).
  eexists _, h1. split; [reflexivity|]. split; [exact S1|]. split; [exact K|]. now apply braces.
Qed.
Lemma block_marks : forall l, (forall n, In n l -> node_marked n) -> forall word p g h ns t g', states ns g h -> 1 <= k_indent g ->
  gen_control_block_c D word p (gen_tree_with (gen_node_c D) l) g = Ok (t, g') -> block_result l ns g (gen_control_block_c P word p (gen_tree_with (gen_node_c P) l) h) t g'.
Proof.
  intros l F word p g h ns t g' S I H. unfold gen_control_block_c in *. apply bind_some in H as (e & -> & H). cbn [bind]. apply bind_some in H as ((c, g0) & H0 & H).
  destruct (expr_marks _ _ _ _ _ _ S H0) as (h0 & -> & S0 & K0). cbn [bind].
  apply bind_some in H as ((t1, g1) & H1 & H). apply bind_some in H as (x & X & H). apply ok_pair in H as (<- & <-).
  destruct (tree_marks l F _ _ _ _ _ S0 H1) as (t2 & h1 & -> & S1 & K & O). cbn [bind]. destruct (opt_some _ _ _ _ O X) as (q & -> & M). cbn [bind].
  replace (k_indent g0 =? 0) with false in * by (symmetry; apply N.eqb_neq; lia). rewrite (states_tabs _ _ _ S1).
  eexists _, h1. split; [reflexivity|]. split; [exact S1|]. split; [congruence|].
  pose proof (braces _ _ _ (word ++ u " (" ++ c ++ u ") {") ([10] ++ get_indentation g1 ++ u "}") M) as B. rewrite <- !app_assoc in B. exact B.
Qed.
Lemma space_marks : forall l, (forall n, In n l -> node_marked n) -> forall p g h ns t g', states ns g h -> 1 <= k_indent g ->
  gen_control_namespace_c D p (gen_tree_with (gen_node_c D) l) g = Ok (t, g') -> block_result l ns g (gen_control_namespace_c P p (gen_tree_with (gen_node_c P) l) h) t g'.
Proof.
  intros l F p g h ns t g' S I H. unfold gen_control_namespace_c in *. destruct p; try discriminate H;
  (apply bind_some in H as ((t1, g1) & H1 & H); apply bind_some in H as (y & Y & H); apply bind_some in H as (x & X & H); apply ok_pair in H as (<- & <-);
  destruct (tree_marks l F _ _ _ _ _ S H1) as (t2 & h1 & -> & S1 & K & O); cbn [bind]; change (ce_syms P) with (ce_syms D); rewrite Y; cbn [bind];
  destruct (opt_some _ _ _ _ O X) as (q & -> & M); cbn [bind];
  replace (k_indent g =? 0) with false in * by (symmetry; apply N.eqb_neq; lia); rewrite (states_tabs _ _ _ S1);
  eexists _, h1; split; [reflexivity|]; split; [exact S1|]; split; [exact K|];
  pose proof (braces _ _ _ (quote ++ y_name y ++ quote ++ u "; {") ([10] ++ get_indentation g1 ++ u "}") M) as B; rewrite <- !app_assoc in B; exact B).
Qed.

(** * Functions *)

Lemma params_env : forall n ks acc, params_c P n ks acc = params_c D n ks acc.
Proof. induction n as [|n IH]; intros [|k ks] acc; try reflexivity. cbn [params_c]. change (gen_param_c P k) with (gen_param_c D k). destruct (gen_param_c D k); [|reflexivity]. cbn [bind]. apply IH. Qed.
Lemma func_marks : forall l tok k ks, (forall n, In n l -> node_marked n) -> forall g h ns g', states ns g h ->
  gen_function_def_c D tok k ks (gen_tree_with (gen_node_c D) l) g = Ok g' ->
  exists h', gen_function_def_c P tok k ks (gen_tree_with (gen_node_c P) l) h = Ok h' /\
    states (ns ++ (if external_fun ys k then [] else inner_of true l ++ own_line tok ++ marks_of true l)) g' h' /\ k_indent g' = k_indent g.
Proof.
  intros l tok k ks F g h ns g' S H. unfold gen_function_def_c in *. apply bind_some in H as ((f, g1) & H1 & H). apply ok_inj in H.
  assert (X : exists f' h1 is ms, gen_function_prototype_c P tok k ks (gen_tree_with (gen_node_c P) l) h = Ok (f', h1) /\ states (ns ++ is) g1 h1 /\ k_indent g1 = k_indent g /\ at_start ms f f' /\
    (if external_fun ys k then [] else inner_of true l ++ own_line tok ++ marks_of true l) = is ++ ms).
  { unfold gen_function_prototype_c in *. apply bind_some in H1 as (y & Y & H1). change (ce_syms P) with (ce_syms D). rewrite Y. cbn [bind].
    assert (X : forall f0, y_kind y = KFunc f0 -> external_fun ys k = f_external f0).
    { intros f0 KF. unfold external_fun, ys. unfold deref in Y. cbn [D with_debug ce_syms] in Y. destruct (nth_error (ce_syms env) k) as [[a b c]|]; [|discriminate Y]. apply ok_inj in Y. subst y. cbn [y_kind] in KF. now subst c. }
    destruct (y_kind y) as [v|f0|z|z]; try discriminate H1. rewrite (X f0 eq_refl). clear X. rewrite params_env.
    apply bind_some in H1 as (list & -> & H1). cbn [bind]. apply bind_some in H1 as (fwd & W & H1).
    change (linkage P k) with (linkage D k). rewrite W. cbn [bind]. destruct (f_external f0).
    - destruct (f_export f0); apply ok_pair in H1 as (<- & <-); eexists _, h, [], []; rewrite app_nil_r; (split; [reflexivity|]); (split; [exact S|]); (split; [reflexivity|]); (split; [apply start_same|reflexivity]).
    - apply bind_some in H1 as ((t, g2) & H2 & H1). apply bind_some in H1 as (x & X & H1). apply bind_some in H1 as (out & U & H1). apply ok_pair in H1 as (<- & <-).
      destruct (tree_marks l F _ _ _ _ _ (states_set _ _ _ 0 S) H2) as (t' & h2 & -> & S2 & K & O). cbn [bind]. destruct (opt_some _ _ _ _ O X) as (p & -> & M). cbn [bind].
      cbn [set_indent k_indent N.eqb] in *. pose proof (braces _ _ _ (fwd ++ (if f_export f0 then [] else u "static ") ++ skull_type_to_c_type (f_ret f0) ++ u " " ++ y_name y ++ u "(" ++
        match list with Some t0 => t0 | None => u "void" end ++ u ") {") ([10] ++ u "}") M) as B. rewrite <- !app_assoc in B.
      destruct (debug_marks _ _ _ _ _ U B) as (_ & M2).
      match goal with |- context [apply_debug_info P tok ?x] => change (apply_debug_info P tok x) with (Ok x) end. cbn [bind]. rewrite (states_indent _ _ _ S).
      eexists _, _, _, _. split; [reflexivity|]. split; [apply states_set; exact S2|]. split; [reflexivity|]. split; [exact M2|reflexivity]. }
  destruct X as (f' & h1 & is & ms & -> & (o & -> & G) & K & M & ->). cbn [bind]. eexists. split; [reflexivity|]. subst g'. split; [|exact K].
  eexists. split; [reflexivity|]. cbn [set_globals with_globals k_globals opt_marked]. rewrite app_assoc.
  destruct (k_globals g1) as [d|], o as [p|]; cbn [opt_marked] in G; try contradiction; [now apply start_join|]. rewrite G. exact M.
Qed.

(** * Nodes *)

Lemma wrap : forall tok t g h ns p ms t' g', states ns g h -> mk ms t p ->
  (do x <- apply_debug_info D tok (get_indentation g ++ t); Ok (Some x, g)) = Ok (t', g') ->
  g' = g /\ exists q, (do x <- apply_debug_info P tok (get_indentation h ++ p); Ok (Some x, h)) = Ok (Some q, h) /\ opt_marked (own_line tok ++ ms) t' (Some q).
Proof.
  intros tok t g h ns p ms t' g' S M H. apply bind_some in H as (x & X & H). apply ok_pair in H as (<- & <-). split; [reflexivity|].
  destruct (debug_marks _ _ _ _ _ X (mk_same_app _ (get_indentation g) _ _ M)) as (V & M2). rewrite (states_tabs _ _ _ S), V. eexists. split; [reflexivity|]. exact M2.
Qed.
Lemma node_marks : forall n, node_marked n.
Proof.
  intro n. induction n as [ty tok p c F] using tnode_ind'. rewrite Forall_forall in F. intros g h ns t g' S I H.
  cbn [gen_node_c] in H |- *. cbn [line_marks].
  assert (BLOCK : forall (r r' : res (text * cst)), (forall t g', r = Ok (t, g') -> block_result c ns g r' t g') ->
    (do (str, g0) <- (do (t0, g0) <- r; Ok (Some t0, g0)); match str with None => Ok (None, g0) | Some t0 => do t1 <- apply_debug_info D tok (get_indentation g0 ++ t0); Ok (Some t1, g0) end) = Ok (t, g') ->
    exists t' h', (do (str, g0) <- (do (t0, g0) <- r'; Ok (Some t0, g0)); match str with None => Ok (None, g0) | Some t0 => do t1 <- apply_debug_info P tok (get_indentation g0 ++ t0); Ok (Some t1, g0) end) = Ok (t', h') /\
      states (ns ++ inner_of false c) g' h' /\ k_indent g' = k_indent g /\ opt_marked (own_line tok ++ marks_of false c) t t').
  { intros r r' R E. apply bind_some in E as ((str, g0) & E0 & E). apply bind_some in E0 as ((t0, g1) & -> & E0). apply ok_pair in E0 as (<- & <-).
    destruct (R t0 g1 eq_refl) as (t1 & h1 & -> & S1 & K & M). cbn [bind]. destruct (wrap _ _ _ _ _ _ _ _ _ S1 M E) as (-> & q & -> & O). exists (Some q), h1. auto. }
  assert (ONE : forall (r r' : res (text * cst)), (forall t g', r = Ok (t, g') -> plain_result ns (k_indent g) r' t g') ->
    (do (str, g0) <- (do (t0, g0) <- r; Ok (Some t0, g0)); match str with None => Ok (None, g0) | Some t0 => do t1 <- apply_debug_info D tok (get_indentation g0 ++ t0); Ok (Some t1, g0) end) = Ok (t, g') ->
    exists t' h', (do (str, g0) <- (do (t0, g0) <- r'; Ok (Some t0, g0)); match str with None => Ok (None, g0) | Some t0 => do t1 <- apply_debug_info P tok (get_indentation g0 ++ t0); Ok (Some t1, g0) end) = Ok (t', h') /\
      states (ns ++ []) g' h' /\ k_indent g' = k_indent g /\ opt_marked (own_line tok) t t').
  { intros r r' R E. apply bind_some in E as ((str, g0) & E0 & E). apply bind_some in E0 as ((t0, g1) & -> & E0). apply ok_pair in E0 as (<- & <-).
    destruct (R t0 g1 eq_refl) as (h1 & -> & S1 & K). cbn [bind]. destruct (wrap _ _ _ _ _ _ _ _ _ S1 (mk_same _ _) E) as (-> & q & -> & O). rewrite app_nil_r in O. exists (Some q), h1. rewrite app_nil_r. auto. }
  assert (WORD : forall s : text, (do t1 <- apply_debug_info D tok (get_indentation g ++ s); Ok (Some t1, g)) = Ok (t, g') ->
    exists t' h', (do t1 <- apply_debug_info P tok (get_indentation h ++ s); Ok (Some t1, h)) = Ok (t', h') /\
      states (ns ++ []) g' h' /\ k_indent g' = k_indent g /\ opt_marked (own_line tok) t t').
  { intros s E. destruct (wrap _ _ _ _ _ _ _ _ _ S (mk_same _ _) E) as (-> & q & -> & O). rewrite app_nil_r in O. exists (Some q), h. rewrite app_nil_r. auto. }
  assert (NONE : Ok (None, g) = Ok (t, g') -> exists t' h', Ok (None, h) = Ok (t', h') /\ states (ns ++ []) g' h' /\ k_indent g' = k_indent g /\ opt_marked [] t t').
  { intro E. apply ok_pair in E as (<- & <-). exists None, h. rewrite app_nil_r. repeat split; auto. }
  destruct ty; cbn [fst snd].
  all: try (exact (NONE H)).
  all: try (exact (WORD _ H)).
  all: try (apply (BLOCK _ _ (fun t g' E => block_marks c F _ _ _ _ _ _ _ S I E) H)).
  all: try (apply (BLOCK _ _ (fun t g' E => else_marks c F _ _ _ _ _ S I E) H)).
  all: try (apply (BLOCK _ _ (fun t g' E => space_marks c F _ _ _ _ _ _ S I E) H)).
  all: try (apply (ONE _ _ (fun t g' E => return_marks _ _ _ _ _ _ S E) H)).
  all: try (apply (ONE _ _ (fun t g' E => call_marks _ _ _ _ _ _ S E) H)).
  - destruct p; try discriminate H; try exact (NONE H).
    match type of H with context [gen_stmt_var_def_c D ?k ?e g] => rename k into kk; rename e into ee end.
    apply bind_some in H as ((str, g0) & H0 & H). destruct (def_marks _ _ _ _ _ _ _ S H0) as (h1 & -> & S1 & K & TN). cbn [bind].
    destruct str as [t0|].
    + destruct ((k_indent g =? 1) && constant_var ys kk); [destruct TN as (_ & TN); discriminate (TN eq_refl)|]. cbn [fst snd].
      destruct (wrap _ _ _ _ _ _ _ _ _ S1 (mk_same _ _) H) as (-> & q & -> & O). rewrite app_nil_r in O. exists (Some q), h1. rewrite app_nil_r. auto.
    + rewrite (proj1 TN eq_refl). cbn [fst snd]. apply ok_pair in H as (<- & <-). exists None, h1. rewrite app_nil_r. repeat split; auto.
  - destruct p; try discriminate H. refine (ONE _ _ _ H). intros t0 g0 E. unfold gen_stmt_var_assign_c in *. apply bind_some in E as ((name, v) & HV & E).
    match goal with |- context [sym_var_c P ?k] => change (sym_var_c P k) with (sym_var_c D k) end. rewrite HV. cbn [bind]. exact (assign_marks _ _ _ _ _ _ _ S E).
  - destruct p; try discriminate H. apply bind_some in H as ((str, g0) & H0 & H). apply bind_some in H0 as (g1 & H1 & H0). apply ok_pair in H0 as (<- & <-). apply ok_pair in H as (<- & <-).
    destruct (func_marks c tok _ _ F _ _ _ _ S H1) as (h1 & -> & S1 & K). cbn [bind]. exists None, h1. split; [reflexivity|].
    unfold inner_of, marks_of in S1. destruct (external_fun ys _); cbn [fst snd]; repeat split; auto.
Qed.

(** * The file *)

Lemma ends_line : forall g, exists pre, headers_c ++ [10] ++ print_builtins g = pre ++ [10].
Proof.
  intro g. unfold print_builtins. destruct (k_strcmp g), (k_int_pow g), (k_float_pow g); rewrite ?app_nil_r; cbn [app];
    eexists; rewrite ?app_comm_cons, ?app_assoc; cbn [app]; first [reflexivity|rewrite ?app_nil_r; reflexivity].
Qed.

Lemma file_marks : forall l d, c_file D l = Ok d ->
  exists p, c_file P l = Ok p /\ marked file (function_marks ys l ++ 1 :: statement_marks ys l ++ [1]) d p.
Proof.
  intros l d H. unfold c_file, gen_tree_c in *. apply bind_some in H as ((tree, g) & H1 & H). apply bind_some in H as (m & HM & H). apply ok_inj in H.
  assert (S : states [] setup_c_state setup_c_state) by (exists None; split; reflexivity).
  destruct (tree_marks l (fun n _ => node_marks n) _ _ _ _ _ S H1) as (tree' & h & -> & (o & -> & G) & _ & O). cbn [bind].
  change (ce_file P) with (ce_file D). rewrite HM. cbn [bind]. eexists. split; [reflexivity|]. subst d.
  change (print_builtins (with_globals g o)) with (print_builtins g). cbn [setup_c_state k_indent N.eqb app] in G, O.
  change (marks_of true l) with (statement_marks ys l) in O. change (inner_of true l) with (function_marks ys l) in G.
  destruct (ends_line g) as (pre & E).
  assert (X : exists a b, headers_c ++ [10] ++ print_builtins g ++ print_globals g = a ++ [10] /\ headers_c ++ [10] ++ print_builtins g ++ print_globals (with_globals g o) = b ++ [10] /\ mk (function_marks ys l) a b).
  { assert (E2 : forall z, headers_c ++ [10] ++ print_builtins g ++ z = (pre ++ [10]) ++ z) by (intro z; rewrite <- E, <- !app_assoc; reflexivity).
    rewrite !E2. unfold print_globals. cbn [with_globals k_globals].
    destruct (k_globals g) as [x|], o as [y|]; cbn [opt_marked] in G; try contradiction.
    - exists (pre ++ [10] ++ x ++ [10]), (pre ++ [10] ++ y ++ [10]). split; [rewrite <- !app_assoc; reflexivity|]. split; [rewrite <- !app_assoc; reflexivity|].
      apply mk_same_app. exact (mk_app_same _ [10] _ _ G).
    - rewrite G. exists pre, pre. rewrite !app_nil_r. split; [reflexivity|]. split; [reflexivity|apply mk_same]. }
  destruct X as (a & b & EA & EB & M).
  replace (headers_c ++ [10] ++ print_builtins g ++ print_globals g ++ print_main_shim D m tree) with ((headers_c ++ [10] ++ print_builtins g ++ print_globals g) ++ print_main_shim D m tree) by (rewrite <- !app_assoc; reflexivity).
  replace (headers_c ++ [10] ++ print_builtins g ++ print_globals (with_globals g o) ++ print_main_shim P m tree') with ((headers_c ++ [10] ++ print_builtins g ++ print_globals (with_globals g o)) ++ print_main_shim P m tree') by (rewrite <- !app_assoc; reflexivity).
  rewrite EA, EB, <- !app_assoc. apply mk_app; [exact M|].
  unfold print_main_shim. cbn [D P with_debug ce_debug ce_file].
  assert (ONE : directive file 1 (u "#line 1 " ++ [34] ++ file ++ [34] ++ [10])) by exact (di_line file 1 [49] ltac:(discriminate) eq_refl).
  set (dir := u "#line 1 " ++ quote ++ ce_file env ++ quote ++ [10]).
  change (u "#line 1 " ++ [34] ++ file ++ [34] ++ [10]) with dir in ONE.
  assert (T : at_start (statement_marks ys l) (match tree with Some t => t | None => [] end) (match tree' with Some t => t | None => [] end)).
  { destruct tree as [x|], tree' as [y|]; cbn [opt_marked] in O; try contradiction; [exact O|]. rewrite O. apply start_same. }
  pose proof (a_directive 1 dir ONE [] _ _ (mk_same _ (u "int main(void) { return init(); }" ++ [10]))) as Z.
  pose proof (mk_app _ _ _ _ _ _ _ T (mk_same_app _ ([10] ++ [9] ++ u "return 0;" ++ [10] ++ u "}") _ _ Z)) as W.
  apply (mk_same_app _ (u "static int init(void) __asm__(" ++ quote ++ m ++ quote ++ u ");" ++ [10] ++ u "static int init(void) {")) in W.
  apply (a_directive 1 dir ONE) in W. unfold at_start in W. rewrite <- !app_assoc in W. rewrite app_nil_l. cbn [app] in W |- *. exact W.
Qed.
End Lines.
