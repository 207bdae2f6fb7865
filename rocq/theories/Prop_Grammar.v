From Coq Require Import List Arith NArith Bool Ascii String.
From Verif Require Import Base Model_Token Model_Parse Spec_Parse Spec_Grammar Proof_Grammar.
Import ListNotations.
Open Scope list_scope.
Open Scope N_scope.

(** C54: a program that is written by the grammar is parsed, without messages, as the
    statements it is made of. *)
Theorem programs_are_parsed : forall ts l, stmts_at ts l [] -> l <> [] ->
  exists tree, parse_ast_tree ts = Ret [] (Some tree) /\ all_stand tree l.
Proof. exact program_parses. Qed.
Print Assumptions programs_are_parsed.

Definition demo : text :=
  line "import m" ++
  line "export f(a: Int, b: & Float) Int {" ++
  line "  if a < 1 { return a }" ++
  line "  # less" ++
  line "  else" ++
  line "  {" ++
  line "    noop" ++
  line "  }" ++
  line "  while true { break }" ++
  line "  return a * 2" ++
  line "}" ++
  line "external g()" ++
  line "namespace n {" ++
  line "  k := - 1" ++
  line "}" ++
  line "mut x: & Int = y" ++
  line "x = n.k" ++
  line "f(x, y)" ++
  line "return".
Definition demo_tokens : list token := Eval vm_compute in tokens_of demo.

Lemma leaf_at : forall t r, operand_type (t_type t) -> expr_at (t :: r) (CLeaf t) r.
Proof. intros t r H. exists [t]. split; [reflexivity|]. split; [now constructor|constructor]. Qed.
Lemma bin_at : forall a t b r o, t_type t = bin_token o -> operand_type (t_type a) -> operand_type (t_type b) ->
  expr_at (a :: t :: b :: r) (CBin o (CLeaf a) (CLeaf b)) r.
Proof.
  intros a t b r o T A B. exists ([a] ++ t :: [b]). split; [reflexivity|]. split; [apply pr_bin; [exact T|now constructor|now constructor]|repeat constructor].
Qed.
Lemma un_at : forall t b r o, t_type t = un_token o -> operand_type (t_type b) -> expr_at (t :: b :: r) (CUn o (CLeaf b)) r.
Proof. intros t b r o T B. exists [t; b]. split; [reflexivity|]. split; [apply pr_un; [exact T|now constructor]|repeat constructor]. Qed.
Lemma call_at : forall f po a c b pc r, name_like (t_type f) -> t_type po = T_PAREN_OPEN -> t_type c = T_COMMA -> t_type pc = T_PAREN_CLOSE ->
  operand_type (t_type a) -> operand_type (t_type b) -> expr_at (f :: po :: a :: c :: b :: pc :: r) (CCall f [CLeaf a; CLeaf b]) r.
Proof.
  intros f po a c b pc r F PO C PC A B. exists (f :: po :: [a; c; b] ++ [pc]). split; [reflexivity|]. split.
  - apply pr_call; auto. apply (pa_more (CLeaf a) (CLeaf b) [] [a] c [b]); [now constructor|exact C|apply pa_one; now constructor].
  - constructor. repeat constructor.
Qed.

Ltac kind := first [reflexivity | exact I | left; reflexivity | right; reflexivity | vm_compute; tauto].
Ltac nl := eapply ss_line; [kind|].
Lemma demo_written : exists s1 s2 s3 s4 s5 s6 s7 s8, stmts_at demo_tokens [s1; s2; s3; s4; s5; s6; s7; s8] [] /\
  (exists x, s1 = SImport x) /\ (exists f p q r b1 b2 b3 b4 b5, s2 = SFunc true f [p; q] r [b1; b2; b3; b4; b5] /\
    (exists c d, b1 = SBlock N_IF c d) /\ b2 = SWord N_COMMENT /\ b3 = SBlock N_ELSE None [SWord N_NOOP]) /\
  (exists x, s3 = SExtern x [] []) /\ (exists x d, s4 = SSpace x [d]) /\ (exists x t1 t2 c, s5 = SDef true false x (Some [t1; t2]) c) /\
  (exists x c, s6 = SAssign x c) /\ (exists f a b, s7 = SCall f [a; b]) /\ s8 = SReturn None.
Proof.
  eexists _, _, _, _, _, _, _, _. split.
  - unfold demo_tokens.
    eapply ss_cons; [eapply sa_import; kind|]. nl.
    eapply ss_cons.
    { eapply (sa_func [_] true); [cbn; eexists; split; kind| | |].
      - eapply (ha_type _ _ _ _ [_]); [kind|kind| | |].
        + eapply (pa_comma _ [_]); [kind|apply bt_name; kind|kind|]. eapply (pa_last _ [_; _]); [kind|apply bt_ref; [kind|apply bt_name; kind]|kind].
        + kind.
        + apply bt_name; kind.
      - kind.
      - eapply (ba_block _ _ (_ :: _)); [kind| |discriminate|].
        + nl. eapply ss_cons.
          { eapply (sa_if _ _ N_IF); [kind|kind|apply (bin_at _ _ _ _ BLess); kind|]. eapply (ba_block _ _ (_ :: _)); [kind| |discriminate|].
            - eapply ss_cons; [eapply sa_result; [kind|apply leaf_at; kind|kind]|apply ss_nil].
            - kind. }
          nl. eapply ss_cons; [apply (sa_word _ _ N_COMMENT); kind|]. nl.
          eapply ss_cons.
          { eapply sa_else; [kind|]. eapply ba_line; [kind|]. eapply (ba_block _ _ (_ :: _)); [kind| |discriminate|].
            - nl. eapply ss_cons; [apply (sa_word _ _ N_NOOP); kind|]. nl. apply ss_nil.
            - kind. }
          nl. eapply ss_cons.
          { eapply (sa_if _ _ N_WHILE); [kind|kind|apply leaf_at; kind|]. eapply (ba_block _ _ (_ :: _)); [kind| |discriminate|].
            - eapply ss_cons; [apply (sa_word _ _ N_BREAK); kind|apply ss_nil].
            - kind. }
          nl. eapply ss_cons; [eapply sa_result; [kind|apply (bin_at _ _ _ _ BMult); kind|kind]|]. nl. apply ss_nil.
        + kind. }
    nl. eapply ss_cons.
    { eapply sa_extern; [kind|eapply ha_void; [kind|kind|apply pa_none; kind|kind]|kind]. }
    nl. eapply ss_cons.
    { eapply sa_space; [kind|kind|]. eapply (ba_block _ _ (_ :: _)); [kind| |discriminate|].
      - nl. eapply ss_cons; [eapply (sa_define [] false false); [kind|kind|kind|apply (un_at _ _ _ UNeg); kind|kind]|]. nl. apply ss_nil.
      - kind. }
    nl. eapply ss_cons.
    { eapply (sa_declare [_] true false _ [_; _]); [cbn; eexists; split; kind|kind|apply bt_ref; [kind|apply bt_name; kind]|kind|apply leaf_at; kind|kind]. }
    nl. eapply ss_cons; [eapply sa_assign; [kind|kind|apply leaf_at; kind|kind]|].
    nl. eapply ss_cons; [eapply sa_call; [apply call_at; kind|kind]|].
    nl. eapply ss_cons; [eapply sa_return; kind|].
    nl. apply ss_nil.
  - repeat split; repeat eexists.
Qed.
Example programs_are_parsed_ex : exists l tree, stmts_at (tokens_of demo) l [] /\ l <> [] /\
  parse_ast_tree (tokens_of demo) = Ret [] (Some tree) /\ all_stand tree l.
Proof.
  destruct demo_written as (s1 & s2 & s3 & s4 & s5 & s6 & s7 & s8 & H & _). exists [s1; s2; s3; s4; s5; s6; s7; s8].
  replace (tokens_of demo) with demo_tokens by (vm_compute; reflexivity).
  destruct (programs_are_parsed _ _ H) as (tree & P & A); [discriminate|]. exists tree. repeat (split; [assumption || discriminate|]). exact A.
Qed.

(** C54 is false with comments or closing brackets behind definitions, where they are fine
    behind other statements. *)
Theorem trailing_comments_refuted : exists ms1 ms2,
  parse_ast_tree (tokens_of (line "x := 1 # one")) = Ret ms1 None /\ map m_code ms1 = [P_EXPECTED_NEWLINE] /\
  parse_ast_tree (tokens_of (line "if a { x := 1 }")) = Ret ms2 None /\ map m_code ms2 = [P_EXPECTED_NEWLINE] /\
  (exists t, parse_ast_tree (tokens_of (line "x = 1 # one")) = Ret [] (Some t)) /\
  (exists t, parse_ast_tree (tokens_of (line "if a { x = 1 }")) = Ret [] (Some t)).
Proof.
  eexists _, _. split; [vm_compute; reflexivity|]. split; [reflexivity|]. split; [vm_compute; reflexivity|]. split; [reflexivity|].
  split; eexists; vm_compute; reflexivity.
Qed.
Print Assumptions trailing_comments_refuted.
