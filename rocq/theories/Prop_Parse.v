(** C11-C16, C44-C46: the parser. *)
From Coq Require Import List Arith NArith Bool Lia Ascii String.
From Verif Require Import Base Model_Token Model_Classify Model_Parse Spec_Parse
  Proof_Parse Proof_Parse2 Proof_Parse3 Proof_Parse4 Proof_Parse5.
Import ListNotations.
Open Scope list_scope.
Open Scope N_scope.

(** A token for the examples. *)
Definition tk (ty : ttype) (n : N) : token := mktok (Some (N.to_nat n)) 1 ty (mkloc 1 (n + 1)).

(** C11: the parser ends for every token list; as many steps as there are tokens are
    enough at each level. *)
Theorem parser_finishes : forall ts, parse_ast_tree ts <> Fuel.
Proof. intros ts H. pose proof (parse_spec ts) as P. now rewrite H in P. Qed.
Print Assumptions parser_finishes.

Example parser_finishes_ex :
  let paren n := Some (mktok (Some (N.to_nat (n - 1))) 1 T_PAREN_OPEN (mkloc 1 n)) in
  parse_ast_tree (tokens_of (u "f(((((1")) =
    Ret [mkmsg P_MISSING_CLOSING_PAREN (Some (mkloc 1 6)); mkmsg (P_INVALID_EXPR (paren 5)) (Some (mkloc 1 5));
         mkmsg (P_INVALID_EXPR (paren 4)) (Some (mkloc 1 4)); mkmsg (P_INVALID_EXPR (paren 3)) (Some (mkloc 1 3));
         mkmsg P_MISSING_CLOSING_PAREN (Some (mkloc 1 3))] None.
Proof. vm_compute. reflexivity. Qed.

(** C11: the tree of an accepted program, read from its first to its last node, gives the
    words and operators of the program in order, each once. *)
Theorem tree_reads_back : forall ts ms tree, blocks_follow true ts ->
  parse_ast_tree ts = Ret ms (Some tree) -> flat_map node_syms tree = syms ts.
Proof. intros ts ms tree B E. apply parsed_of in E as (_ & _ & _ & H). auto. Qed.
Print Assumptions tree_reads_back.

Example tree_reads_back_ex :
  let ts := tokens_of (line "f(x: Int) Int {" ++ line "if x is 1 { return (x + 2) * 3 }" ++
                       line "else { y := g(1, - x)" ++ line "} }") in
  blocks_follow true ts /\
  exists tree, parse_ast_tree ts = Ret [] (Some tree) /\ List.length tree = 1%nat /\ List.length (syms ts) = 21%nat.
Proof.
  cbv zeta. split; [vm_compute; intuition discriminate|]. eexists. split; [vm_compute; reflexivity|]. split; reflexivity.
Qed.

(** C11 is false when the program begins with a block: a block is lost when another one
    follows, and what follows a block becomes the head of it. *)
Theorem tree_reads_back_refuted : exists ts tree, parse_ast_tree ts = Ret [] (Some tree) /\
  In (Word (nth 1 ts (tk T_UNKNOWN 0))) (syms ts) /\
  ~ In (Word (nth 1 ts (tk T_UNKNOWN 0))) (flat_map node_syms tree).
Proof.
  exists (tokens_of (u "{ noop } { return 1 } break")). eexists. split; [vm_compute; reflexivity|].
  split; [vm_compute; now left|]. vm_compute. intuition discriminate.
Qed.
Print Assumptions tree_reads_back_refuted.

Example tree_reads_back_refuted_ex : exists n c,
  parse_ast_tree (tokens_of (u "{ noop } { return 1 } break")) = Ret [] (Some [n]) /\
  n_type n = N_BREAK /\ n_child n = [c] /\ n_type c = N_RETURN.
Proof. eexists _, _. split; [vm_compute; reflexivity|]. repeat split. Qed.

(** C12: an expression is read from a run of tokens, none of which is a line end, a bracket or a
    keyword; its tree read from left to right is that run. *)
Theorem expression_reads_back : forall ts ms s e,
  parse_expression (S (List.length ts)) (mkpst ts false ms) = Ret s (Some e) ->
  exists used, ts = used ++ p_tok s /\ used <> [] /\ yield e = syms used /\ p_err s = false /\
    p_msgs s = ms /\ Forall (fun t => expression_token (t_type t)) used.
Proof. intros ts ms s e. apply expression_read. apply Nat.lt_succ_diag_r. Qed.
Print Assumptions expression_reads_back.

Example expression_reads_back_ex :
  let ts := tokens_of (line "a is b + c * - d ^ f(1, 2)") in
  exists s e, parse_expression (S (List.length ts)) (mkpst ts false []) = Ret s (Some e) /\
    List.length (p_tok s) = 1%nat /\ List.length (yield e) = 12%nat.
Proof. cbv zeta. eexists _, _. split; [vm_compute; reflexivity|]. split; reflexivity. Qed.

(** C13: an expression whose operators are grouped by the strengths of the operators, and from
    left to right for equal strength, is read with that grouping if it is plain: the right operand of
    an operator has no looser part on its own right, and a parenthesis at the very
    start is not followed by a tighter operator. *)
Theorem operators_group : forall ret c ts nl, t_type ret = T_KW_RETURN -> t_type nl = T_NEWLINE ->
  prints c ts -> grouped c -> plain c -> exists e, returns (ret :: ts ++ [nl]) e /\ same e c.
Proof.
  intros ret c ts nl Y1 Y2 HP HG HN.
  destruct (return_runs ret c ts nl Y1 Y2 HP (grouped_single_unary c HG)) as (e & R & G & _). exists e. auto.
Qed.
Print Assumptions operators_group.

(** The same inside any larger program. *)
Theorem operators_group_anywhere : forall c ts rest ms, prints c ts -> grouped c -> plain c -> stops rest ->
  exists e, parse_expression (S (List.length (ts ++ rest))) (mkpst (ts ++ rest) false ms)
    = Ret (mkpst rest false ms) (Some e) /\ same e c.
Proof.
  intros c ts rest ms HP HG HN HS.
  destruct (expression_runs (S (List.length (ts ++ rest))) c ts rest ms HP (grouped_single_unary c HG) HS (Nat.lt_succ_diag_r _))
    as (e & R & G). exists e. auto.
Qed.
Print Assumptions operators_group_anywhere.

(** a * b * c + d ^ 2 is -(e) *)
Definition ex_c : cst :=
  CBin BIs (CBin BAdd (CBin BMult (CBin BMult (CLeaf (tk T_IDENTIFIER 1)) (CLeaf (tk T_IDENTIFIER 3)))
    (CLeaf (tk T_IDENTIFIER 5))) (CBin BPow (CLeaf (tk T_IDENTIFIER 7)) (CLeaf (tk T_INT_CONST 9))))
    (CUn UNeg (CParen (CLeaf (tk T_IDENTIFIER 13)))).
Definition ex_ts : list token :=
  [tk T_IDENTIFIER 1; tk T_OPER_STAR 2; tk T_IDENTIFIER 3; tk T_OPER_STAR 4; tk T_IDENTIFIER 5; tk T_OPER_PLUS 6;
   tk T_IDENTIFIER 7; tk T_OPER_POW 8; tk T_INT_CONST 9; tk T_OPER_IS 10; tk T_OPER_DASH 11; tk T_PAREN_OPEN 12;
   tk T_IDENTIFIER 13; tk T_PAREN_CLOSE 14].
Lemma pr_bin_at : forall n o l r ts, match nth_error ts n with Some t => t_type t = bin_token o | None => False end ->
  prints l (firstn n ts) -> prints r (skipn (S n) ts) -> prints (CBin o l r) ts.
Proof.
  intros n o l r ts H HL HR. destruct (nth_error ts n) as [t|] eqn:E; [|contradiction].
  assert (ts = firstn n ts ++ t :: skipn (S n) ts) as ->.
  { clear - E. revert ts E. induction n as [|n IH]; intros [|x ts] E; try discriminate.
    - cbn in E. now inversion E.
    - cbn [firstn skipn app]. f_equal. now apply IH. }
  now constructor.
Qed.
Ltac leaf := apply pr_leaf; cbn; tauto.
Example ex_prints : prints ex_c ex_ts.
Proof.
  apply (pr_bin_at 9); [reflexivity| |]; cbn [firstn skipn ex_ts].
  - apply (pr_bin_at 5); [reflexivity| |]; cbn [firstn skipn].
    + apply (pr_bin_at 3); [reflexivity| |leaf]; cbn [firstn skipn].
      apply (pr_bin_at 1); [reflexivity| |]; leaf.
    + apply (pr_bin_at 1); [reflexivity| |]; leaf.
  - apply pr_un; [reflexivity|]. apply (pr_paren (tk T_PAREN_OPEN 12) (tk T_PAREN_CLOSE 14) _ [tk T_IDENTIFIER 13]); try reflexivity. leaf.
Qed.
Ltac grp := repeat (constructor; cbn [level loose]; try lia).
Ltac pln := repeat (first [ apply pl_unit; [exact I|] | constructor ]; try discriminate; try exact I; try (intros; discriminate)).
Example operators_group_ex : prints ex_c ex_ts /\ grouped ex_c /\ plain ex_c /\
  exists e, returns (tk T_KW_RETURN 0 :: ex_ts ++ [tk T_NEWLINE 15]) e /\ same e ex_c.
Proof.
  assert (grouped ex_c) by (unfold ex_c; grp).
  assert (plain ex_c).
  { unfold ex_c. apply pl_bin; [|exact I|repeat constructor|discriminate].
    apply pl_bin; [|cbn; tauto|repeat constructor|discriminate].
    apply pl_bin; [|exact I|repeat constructor|discriminate].
    apply pl_bin; [|exact I|repeat constructor|discriminate].
    apply pl_unit; [exact I|constructor]. }
  split; [exact ex_prints|]. split; [easy|]. split; [easy|].
  now apply operators_group; auto using ex_prints.
Qed.
Example operators_group_anywhere_ex : exists e,
  parse_expression (S (List.length (ex_ts ++ [tk T_PAREN_CLOSE 15]))) (mkpst (ex_ts ++ [tk T_PAREN_CLOSE 15]) false [])
    = Ret (mkpst [tk T_PAREN_CLOSE 15] false []) (Some e) /\ same e ex_c.
Proof.
  destruct operators_group_ex as (P & G & N & _). apply operators_group_anywhere; auto. cbn. split; [easy|discriminate].
Qed.

(** C13 is false in general: with operators of three strengths, `a is b + c * d` is read
    as `a is ((b + c) * d)`. *)
Definition bad_c : cst :=
  CBin BIs (CLeaf (tk T_IDENTIFIER 1)) (CBin BAdd (CLeaf (tk T_IDENTIFIER 3))
    (CBin BMult (CLeaf (tk T_IDENTIFIER 5)) (CLeaf (tk T_IDENTIFIER 7)))).
Definition bad_ts : list token :=
  [tk T_IDENTIFIER 1; tk T_OPER_IS 2; tk T_IDENTIFIER 3; tk T_OPER_PLUS 4; tk T_IDENTIFIER 5; tk T_OPER_STAR 6; tk T_IDENTIFIER 7].
Theorem operators_group_refuted : exists ret c ts nl e, t_type ret = T_KW_RETURN /\ t_type nl = T_NEWLINE /\
  prints c ts /\ grouped c /\ returns (ret :: ts ++ [nl]) e /\ ~ same e c.
Proof.
  exists (tk T_KW_RETURN 0), bad_c, bad_ts, (tk T_NEWLINE 8). eexists. split; [easy|]. split; [easy|].
  split.
  { apply (pr_bin_at 1); [reflexivity|leaf|]. cbn [skipn bad_ts]. apply (pr_bin_at 1); [reflexivity|leaf|].
    cbn [skipn]. apply (pr_bin_at 1); [reflexivity|leaf|leaf]. }
  split; [unfold bad_c; grp|]. split; [vm_compute; reflexivity|].
  intro S. inversion S as [| | | | |? ? ? ? ? S1 S2]; subst. inversion S2.
Qed.
Print Assumptions operators_group_refuted.

(** The same from a source text; and `-a ^ b` is -(a ^ b) but behind `c *` it is (-a) ^ b. *)
Example operators_group_refuted_ex :
  (exists a b c d, returns (tokens_of (line "return a is b + c * d"))
     (EBin BIs (Some (EVar a)) (EBin BMult (Some (EBin BAdd (Some (EVar b)) (EVar c))) (EVar d)))) /\
  (exists a b, returns (tokens_of (line "return - a ^ b")) (EUn UNeg (Some (EBin BPow (Some (EVar a)) (EVar b))))) /\
  (exists a b c, returns (tokens_of (line "return c * - a ^ b"))
     (EBin BMult (Some (EVar c)) (EBin BPow (Some (EUn UNeg (Some (EVar a)))) (EVar b)))).
Proof.
  split; [|split].
  - eexists _, _, _, _. vm_compute. reflexivity.
  - eexists _, _. vm_compute. reflexivity.
  - eexists _, _, _. vm_compute. reflexivity.
Qed.

(** C14: an operand in parentheses on the right of an operator stays together. *)
Theorem right_parentheses_group : forall ret l r lts rts t po pc o nl,
  t_type ret = T_KW_RETURN -> t_type nl = T_NEWLINE -> t_type po = T_PAREN_OPEN ->
  t_type pc = T_PAREN_CLOSE -> t_type t = bin_token o ->
  prints l lts -> grouped l -> plain l -> prints r rts -> grouped r -> plain r ->
  (level l <= loose o)%nat -> (forall c, l = CParen c -> (bare_level c <= loose o)%nat) ->
  exists el er, returns (ret :: lts ++ t :: po :: rts ++ [pc; nl]) (EBin o (Some el) er) /\ same el l /\ same er r.
Proof.
  intros ret l r lts rts t po pc o nl Y1 Y2 Y3 Y4 Y5 PL GL NL PR GR NR HL HC.
  destruct (operators_group ret (CBin o l (CParen r)) (lts ++ t :: po :: rts ++ [pc]) nl Y1 Y2) as (e & R & S).
  - apply pr_bin; auto. now constructor.
  - constructor; auto; [destruct o; cbn; lia|now constructor].
  - apply pl_bin; auto; [exact I|now constructor].
  - inversion S as [| | | | |? el er ? ? S1 S2]; subst. inversion S2; subst. exists el, er.
    split; [|split; assumption]. rewrite <- app_assoc in R. cbn in R. rewrite <- app_assoc in R. exact R.
Qed.
Print Assumptions right_parentheses_group.

Example right_parentheses_group_ex : exists a b c, returns (tokens_of (line "return a * (b + c)"))
  (EBin BMult (Some (EVar a)) (EBin BAdd (Some (EVar b)) (EVar c))).
Proof. eexists _, _, _. vm_compute. reflexivity. Qed.

(** C14: an operand in parentheses at the start of an expression stays together exactly
    when the operator behind it does not bind tighter than what is inside. *)
Theorem left_parentheses_group_iff : forall ret po pc t o l r lts rts nl,
  t_type ret = T_KW_RETURN -> t_type nl = T_NEWLINE -> t_type po = T_PAREN_OPEN ->
  t_type pc = T_PAREN_CLOSE -> t_type t = bin_token o ->
  prints l lts -> grouped l -> plain l -> prints r rts -> one_operand r -> grouped r -> inside r ->
  (level r < loose o)%nat ->
  exists e, returns (ret :: po :: lts ++ pc :: t :: rts ++ [nl]) e /\
    (same e (CBin o (CParen l) r) <-> (bare_level l <= loose o)%nat).
Proof. exact left_paren. Qed.
Print Assumptions left_parentheses_group_iff.

Example left_parentheses_group_iff_ex : exists a b c,
  returns (tokens_of (line "return (a + b) is c"))
    (EBin BIs (Some (EBin BAdd (Some (EVar a)) (EVar b))) (EVar c)).
Proof. eexists _, _, _. vm_compute. reflexivity. Qed.

(** C14 is false: `(a + b) * c` is read as `a + (b * c)`. *)
Theorem parentheses_group_refuted : exists ts a b c,
  map t_type ts = [T_KW_RETURN; T_PAREN_OPEN; T_IDENTIFIER; T_OPER_PLUS; T_IDENTIFIER; T_PAREN_CLOSE;
                   T_OPER_STAR; T_IDENTIFIER; T_NEWLINE] /\
  returns ts (EBin BAdd (Some (EVar a)) (EBin BMult (Some (EVar b)) (EVar c))).
Proof. exists (tokens_of (line "return (a + b) * c")). eexists _, _, _. split; vm_compute; reflexivity. Qed.
Print Assumptions parentheses_group_refuted.

(** Power does not help either: `(a * b) ^ c`. *)
Example parentheses_group_refuted_ex : exists a b c,
  returns (tokens_of (line "return (a * b) ^ c")) (EBin BMult (Some (EVar a)) (EBin BPow (Some (EVar b)) (EVar c))).
Proof. eexists _, _, _. vm_compute. reflexivity. Qed.

(** C15: the parser never follows a null pointer if the program ends with a line end that
    is not behind a declaration without a value. *)
Theorem parser_is_safe : forall ts, ts = [] \/ ends_cleanly ts -> parse_ast_tree ts <> Bad.
Proof. intros ts S H. pose proof (parse_spec ts) as P. rewrite H in P. now apply P. Qed.
Print Assumptions parser_is_safe.

Lemma no_declaration : forall a nl, Forall (fun t => t_type t <> T_NEW_IDENTIFIER) a -> t_type nl = T_NEWLINE ->
  ends_cleanly (a ++ [nl]).
Proof.
  intros a nl F Y. exists a, nl. split; [easy|]. split; [easy|]. intros b d E H. inversion H as [t r Z _]; subst.
  apply Forall_app in F as (_ & F). inversion F. contradiction.
Qed.
Example parser_is_safe_ex :
  let ts := tokens_of (line "export" ++ line "x = (") in
  ends_cleanly ts /\ exists ms, parse_ast_tree ts = Ret ms None.
Proof.
  cbv zeta. split.
  - assert (E : exists a nl, tokens_of (line "export" ++ line "x = (") = a ++ [nl] /\
      forallb (fun t => negb (ttype_eqb (t_type t) T_NEW_IDENTIFIER)) a = true /\ t_type nl = T_NEWLINE).
    { eexists [_; _; _; _; _], _. split; [vm_compute; reflexivity|]. split; reflexivity. }
    destruct E as (a & nl & E & F & Y). rewrite E. apply no_declaration; [|exact Y].
    apply Forall_forall. intros t I Z. rewrite forallb_forall in F. apply F in I. rewrite Z in I. discriminate.
  - eexists. vm_compute. reflexivity.
Qed.

(** C15 is false: these programs make the parser follow a null pointer. *)
Theorem parser_is_safe_refuted :
  parse_ast_tree (tokens_of (u "x =")) = Bad /\ parse_ast_tree (tokens_of (u "x :=")) = Bad /\
  parse_ast_tree (tokens_of (u "export")) = Bad /\ parse_ast_tree (tokens_of (u "external")) = Bad /\
  parse_ast_tree (tokens_of (line "x: Int")) = Bad.
Proof. repeat split; vm_compute; reflexivity. Qed.
Print Assumptions parser_is_safe_refuted.

(** Without the line end the last one gives a proper message. *)
Example parser_is_safe_refuted_ex :
  parse_ast_tree (tokens_of (u "x: Int")) = Ret [mkmsg P_MISSING_ASSIGNMENT (Some (mkloc 1 1))] None.
Proof. vm_compute. reflexivity. Qed.

(** C15: all operands are there if each unary operator is followed by something. *)
Theorem operands_are_there : forall ts ms tree n e, unary_has_operand ts ->
  parse_ast_tree ts = Ret ms (Some tree) -> in_tree n tree -> node_expr n = Some e -> complete e.
Proof. intros ts ms tree n e U E I H. apply parsed_of in E as (_ & _ & F & _). now apply (F n I). Qed.
Print Assumptions operands_are_there.

Example operands_are_there_ex :
  let ts := tokens_of (line "while not f(-1, & x) { y = * z + 1 }") in
  unary_has_operand ts /\ exists tree, parse_ast_tree ts = Ret [] (Some tree).
Proof.
  cbv zeta. split; [|eexists; vm_compute; reflexivity].
  vm_compute.
  repeat (split; [intros (o & H); first [destruct o; discriminate|eexists _, _; split; [reflexivity|left; reflexivity]]|]).
  exact I.
Qed.

(** C15 is false without that: `return -` gives a negation of nothing. *)
Theorem operands_are_there_refuted : exists ts, ends_cleanly ts /\ returns ts (EUn UNeg None) /\
  ~ complete (EUn UNeg None).
Proof.
  exists [tk T_KW_RETURN 0; tk T_OPER_DASH 7; tk T_NEWLINE 8]. split.
  - apply (no_declaration [_; _]); [|reflexivity]. repeat constructor; discriminate.
  - split; [vm_compute; reflexivity|]. intro H. inversion H.
Qed.
Print Assumptions operands_are_there_refuted.

Example operands_are_there_refuted_ex : returns (tokens_of (line "return not")) (EUn UNot None).
Proof. vm_compute. reflexivity. Qed.

(** C16: a rejected program comes with a message unless it ends with `if`, `elif`, `while`
    or `namespace`. *)
Theorem rejection_has_a_message : forall ts ms, ~ quiet_end ts -> parse_ast_tree ts = Ret ms None -> ms <> [].
Proof. intros ts ms Q E. apply parsed_of in E as ([H|H] & _); [easy|contradiction]. Qed.
Print Assumptions rejection_has_a_message.

Example rejection_has_a_message_ex :
  parse_ast_tree (tokens_of (line "f(1, , 2)")) = Ret [mkmsg P_UNEXPECTED_COMMA (Some (mkloc 1 6))] None.
Proof. vm_compute. reflexivity. Qed.

(** C16 is false for a word that wants a condition at the very end. *)
Theorem rejection_has_a_message_refuted : forall k, In k [T_KW_IF; T_KW_ELIF; T_KW_WHILE; T_KW_NAMESPACE] ->
  forall p, parse_ast_tree [mktok p 2 k (mkloc 1 1)] = Ret [] None.
Proof. intros k H p. cbn in H. repeat (destruct H as [<-|H]; [reflexivity|]). easy. Qed.
Print Assumptions rejection_has_a_message_refuted.

Example rejection_has_a_message_refuted_ex : parse_ast_tree (tokens_of (u "x := 1 " ++ [10] ++ u "while")) = Ret [] None.
Proof. vm_compute. reflexivity. Qed.

(** C16: messages point at tokens of the program and name the one they point at (those for a
    missing closing bracket and a missing operand at the end point nowhere), and an accepted
    program has none. *)
Theorem messages_point_into_program : forall ts ms tree, parse_ast_tree ts = Ret ms tree ->
  Forall (points_into ts) ms /\ (tree <> None -> ms = []).
Proof.
  intros ts ms tree E. apply parsed_of in E. destruct tree as [tree|]; cbn in E.
  - destruct E as (-> & _). split; [constructor|easy].
  - destruct E as (_ & L). split; [exact L|easy].
Qed.
Print Assumptions messages_point_into_program.

Example messages_point_into_program_ex :
  parse_ast_tree (tokens_of (line "while true {" ++ line "noop")) = Ret [mkmsg P_EOF_NO_BRACKET None] None /\
  parse_ast_tree (tokens_of (line "noop" ++ line "f(1 2)")) = Ret [mkmsg P_EXPECTED_COMMA (Some (mkloc 2 5))] None.
Proof. split; vm_compute; reflexivity. Qed.

(** C44: each node says what is written at its token: names, types, parameters, modifiers, keywords. *)
Theorem nodes_are_as_written : forall ts ms tree n, parse_ast_tree ts = Ret ms (Some tree) -> in_tree n tree ->
  written n /\ (n_type n <> N_UNKNOWN -> n_token n <> []) /\ exists before, ts = before ++ n_token n.
Proof. intros ts ms tree n E I. apply parsed_of in E as (_ & _ & F & _). destruct (F n I) as (H1 & H2 & _ & H3). auto. Qed.
Print Assumptions nodes_are_as_written.

Example nodes_are_as_written_ex : exists tree tok te name ret ps child,
  parse_ast_tree (tokens_of (line "export f(a: Int, b: & Str) Bool { mut c: Int = a" ++ line "}")) = Ret [] (Some tree) /\
  in_tree (mknode N_FUNCTION_PROTO tok te (PProto name ret 2 false true ps) [child]) tree /\
  map pm_name ps = [nth 3 tok name; nth 6 tok name] /\ n_type child = N_VAR_DEF /\ in_tree child tree.
Proof.
  eexists _, _, _, _, _, _, _. split; [vm_compute; reflexivity|].
  split; [apply it_here; left; reflexivity|]. split; [reflexivity|]. split; [reflexivity|].
  eapply it_below; [left; reflexivity|]. apply it_here. left. reflexivity.
Qed.

(** C44 does not say that a typed definition has `=` in front of the value, because any
    token is accepted there. *)
Theorem definition_has_equal_refuted : exists n name e,
  parse_ast_tree (tokens_of (line "x: Int + 5")) = Ret [] (Some [n]) /\ n_pay n = PVarDef name e false true false /\
  option_map t_type (hd_error (n_token_end n)) = Some T_OPER_PLUS.
Proof. eexists _, _, _. split; [vm_compute; reflexivity|]. split; reflexivity. Qed.
Print Assumptions definition_has_equal_refuted.

Example definition_has_equal_refuted_ex : exists n name e,
  parse_ast_tree (tokens_of (line "x: Int } 5")) = Ret [] (Some [n]) /\ n_pay n = PVarDef name e false true false.
Proof. eexists _, _, _. split; [vm_compute; reflexivity|]. reflexivity. Qed.

(** C45: every expression of the grammar is accepted, however deep and long, as long as no
    unary operator stands directly behind another one. *)
Theorem expressions_are_accepted : forall ret c ts nl, t_type ret = T_KW_RETURN -> t_type nl = T_NEWLINE ->
  prints c ts -> single_unary c -> exists e, returns (ret :: ts ++ [nl]) e /\ yield e = syms ts.
Proof.
  intros ret c ts nl Y1 Y2 HP HS. destruct (return_runs ret c ts nl Y1 Y2 HP HS) as (e & R & _ & Y). exists e.
  now split.
Qed.
Print Assumptions expressions_are_accepted.

Example expressions_are_accepted_ex : single_unary bad_c /\ prints bad_c bad_ts /\
  exists e, returns (tk T_KW_RETURN 0 :: bad_ts ++ [tk T_NEWLINE 8]) e /\ yield e = syms bad_ts.
Proof.
  assert (S : single_unary bad_c) by repeat constructor. assert (P : prints bad_c bad_ts).
  { apply (pr_bin_at 1); [reflexivity|leaf|]. cbn [skipn bad_ts]. apply (pr_bin_at 1); [reflexivity|leaf|].
    cbn [skipn]. apply (pr_bin_at 1); [reflexivity|leaf|leaf]. }
  split; [easy|]. split; [easy|]. apply (expressions_are_accepted _ bad_c); easy.
Qed.

(** Two unary operators in a row are rejected. *)
Theorem double_unary_refuted : exists ret t1 t2 x nl ms, prints (CUn UNot (CUn UNot (CLeaf x))) [t1; t2; x] /\
  parse_ast_tree [ret; t1; t2; x; nl] = Ret ms None /\ map m_code ms = [P_NO_DOUBLE_UNARY].
Proof.
  exists (tk T_KW_RETURN 0), (tk T_OPER_NOT 1), (tk T_OPER_NOT 2), (tk T_IDENTIFIER 3), (tk T_NEWLINE 4). eexists.
  split; [repeat (constructor; try reflexivity); cbn; tauto|]. split; vm_compute; reflexivity.
Qed.
Print Assumptions double_unary_refuted.

Example double_unary_refuted_ex : parse_ast_tree (tokens_of (line "return not not a")) =
  Ret [mkmsg P_NO_DOUBLE_UNARY (Some (mkloc 1 12))] None.
Proof. vm_compute. reflexivity. Qed.

(** C46: operands are names or literals, a call has a name and counts its arguments in 16
    bits, and every token comes from the input. *)
Theorem operands_are_names_or_literals : forall ts ms tree n e, parse_ast_tree ts = Ret ms (Some tree) -> in_tree n tree ->
  node_expr n = Some e -> shaped ts e.
Proof. intros ts ms tree n e H I E. exact (parse_shaped ts ms tree H n I e E). Qed.
Print Assumptions operands_are_names_or_literals.

Example operands_are_names_or_literals_ex : exists tree n name args,
  parse_ast_tree (tokens_of (line "x := f(1, a.b + 2.5, ""s"")")) = Ret [] (Some tree) /\ in_tree n tree /\
  node_expr n = Some (ECall name args 3) /\ List.length args = 3%nat.
Proof.
  eexists _, _, _, _. split; [vm_compute; reflexivity|]. split; [apply it_here; left; reflexivity|]. split; reflexivity.
Qed.
