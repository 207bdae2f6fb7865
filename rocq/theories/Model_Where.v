(** Which source locations debug builds of the LLVM back end give to instructions, and in which
    scopes, skull/codegen/llvm/{debug,core,flow,func,assign}.c. *)
From Coq Require Import List Arith NArith Bool.
From Verif Require Import Base Model_Token Model_Parse Model_Sem.
Import ListNotations.
Open Scope list_scope.
Open Scope N_scope.

(** DEBUG_INFO.scope: what LLVMDIBuilderCreateFunction makes for the main program (None), skull/codegen/llvm/debug.c:105-118,
    and for a function (335-348), and what LLVMDIBuilderCreateLexicalBlock makes (297-303). *)
Inductive dscope := ScFun (f : option nat) | ScBlock (parent : dscope) (loc : location).

(** A location that is set: make_llvm_debug_location, skull/codegen/llvm/debug.c:211-222, and
    state->current_func, the function that the instruction is put into. *)
Record mark := mkmark { w_loc : location; w_scope : dscope; w_func : option nat }.

(** DEBUG_INFO.scope, skull/codegen/llvm/debug.h, state->current_func, skull/codegen/llvm/shared.h, and
    the locations that have been set so far. *)
Record wst := mkwst { d_scope : dscope; d_func : option nat; d_marks : list mark }.
(** Assignments to DEBUG_INFO.scope and to state->current_func, e.g. skull/codegen/llvm/func.c:170-180. *)
Definition set_scope (s : wst) (c : dscope) : wst := mkwst c (d_func s) (d_marks s).
Definition set_func (s : wst) (f : option nat) : wst := mkwst (d_scope s) f (d_marks s).

(** add_llvm_debug_info, skull/codegen/llvm/debug.c:198-209. That nothing is set for constants is
    left out: the location is recorded all the same. So there may be marks without an instruction: for conditions that
    are constants, and for variables of the main program that start with a constant, which need no store
    (skull/codegen/llvm/assign.c:83). *)
Definition note (l : location) (s : wst) : wst := mkwst (d_scope s) (d_func s) (d_marks s ++ [mkmark l (d_scope s) (d_func s)]).
Definition note_all (ls : list location) (s : wst) : wst := fold_left (fun s l => note l s) ls s.

(** The calls in an expression, each with the location of its name, skull/codegen/llvm/func.c:101-131. *)
Fixpoint call_locs (x : texpr) : list location :=
  match x with
  | XVar _ _ _ _ | XConst _ _ _ => []
  | XUn _ r _ _ => call_locs r
  | XBin _ l r _ _ => call_locs l ++ call_locs r
  | XCall name _ args _ => List.concat (map call_locs args) ++ [t_loc name]
  end.
(** find_expr_node_location, skull/parse/ast_node.c:1159-1177. *)
Fixpoint find_expr_node_location (x : texpr) : location :=
  match x with
  | XVar t _ _ _ | XConst t _ _ => t_loc t
  | XCall name _ _ _ => t_loc name
  | XUn _ r _ _ => find_expr_node_location r
  | XBin _ l _ _ _ => find_expr_node_location l
  end.
(** `node->token->location`, e.g. skull/codegen/llvm/flow.c:74; all nodes have a token. *)
Definition node_loc (tok : list token) : location := match tok with t :: _ => t_loc t | [] => mkloc 0 0 end.

Section Where.
Variable ys : list symbol.
(** `&symbol->location`, e.g. skull/codegen/llvm/assign.c:117. *)
Definition sym_loc (k : nat) : list location := match nth_error ys k with Some y => [y_loc y] | None => [] end.
(** `func->is_external`; such functions have no body to generate, skull/codegen/llvm/func.c:36-48. *)
Definition is_external (k : nat) : bool := match nth_error ys k with Some (mksym _ _ (KFunc f)) => f_external f | _ => false end.

(** `parsed.value || parsed.type`, skull/codegen/llvm/core.c:32: statements that end a block. *)
Definition stops (ty : ntype) : bool := match ty with N_RETURN | N_UNREACHABLE | N_BREAK | N_CONTINUE => true | _ => false end.
(** gen_tree, skull/codegen/llvm/core.c:28-37. *)
Definition gen_tree_w (gen : tnode -> wst -> wst) :=
  fix go (l : list tnode) (s : wst) {struct l} : wst :=
    match l with
    | [] => s
    | n :: r => let s := gen n s in if stops (tn_type n) then s else go r s
    end.

(** gen_node, skull/codegen/llvm/core.c:39-64. The statements: gen_stmt_return (flow.c:70-86), gen_stmt_noop
    (51-65), gen_control_while (91-132), gen_control_if_ (160-244), gen_control_namespace (153-155),
    gen_control_code_block (264-286), gen_stmt_var_def and gen_stmt_var_assign with assign_value_to_var
    (assign.c:30-50, 99-119) and add_llvm_local_var_def_debug_info (debug.c:266-290, with the same location),
    gen_function_def (func.c:141-186). `elif` and `else` are taken where they stand, and the
    condition of an `if` before its block, so the order of marks is another one. The records for
    parameters (debug.c:352-384) are in Model_Vars.v. *)
Fixpoint gen_node_w (n : tnode) (s : wst) {struct n} : wst :=
  match n with
  | mktnode ty tok p c =>
      let block s :=
        let old_di_scope := d_scope s in
        let s := set_scope s (ScBlock (d_scope s) (node_loc tok)) in
        let s := gen_tree_w gen_node_w c s in
        set_scope s old_di_scope in
      match ty with
      | N_RETURN =>
          match p with
          | XExpr e => note (node_loc tok) (note_all (call_locs e) s)
          | _ => note (node_loc tok) s
          end
      | N_NOOP => note (node_loc tok) s
      | N_VAR_DEF | N_VAR_ASSIGN =>
          match p with
          | XDef k e | XSet k e => note_all (sym_loc k) (note_all (call_locs e) s)
          | _ => s
          end
      | N_EXPR => match p with XExpr e => note_all (call_locs e) s | _ => s end
      | N_IF | N_ELIF | N_WHILE =>
          match p with
          | XExpr e => block (note (find_expr_node_location e) (note_all (call_locs e) s))
          | _ => block s
          end
      | N_ELSE | N_NAMESPACE => block s
      | N_FUNCTION_PROTO =>
          match p with
          | XProto k _ =>
              if is_external k then s
              else
                let old_symbol := d_func s in
                let s := set_func s (Some k) in
                let old_di_scope := d_scope s in
                let s := set_scope s (ScFun (Some k)) in
                let s := gen_tree_w gen_node_w c s in
                let s := set_func s old_symbol in
                set_scope s old_di_scope
          | _ => s
          end
      | _ => s
      end
  end.

(** gen_module, skull/codegen/llvm/core.c:17-23, with gen_stmt_implicit_main_return, flow.c:42-49, from
    the scope that setup_debug_info leaves (debug.c:105). *)
Definition gen_module_w (l : list tnode) : list mark :=
  let s := gen_tree_w gen_node_w l (mkwst (ScFun None) None []) in
  d_marks (if existsb (fun n => stops (tn_type n)) l then s
           else match l with n :: _ => note (node_loc (tn_token n)) s | [] => s end).
End Where.
