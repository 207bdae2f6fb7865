(** How debug builds of the LLVM back end describe variables to debuggers: in which scope, at which line, and where
    the value is, skull/codegen/llvm/debug.c:238-290, 308-406 and assign.c. *)
From Coq Require Import List Arith NArith Bool.
From Verif Require Import Base Model_Token Model_Parse Model_Sem Model_Where.
Import ListNotations.
Open Scope list_scope.

(** `var->ref`: a global (skull/codegen/llvm/assign.c:66), a cell on the stack (assign.c:86, debug.c:396), or the value itself (assign.c:107).
    The record tells the debugger that this is the address of the variable (debug.c:282, 375). *)
Inductive place := PGlobal | PCell | PValue.

(** What is described: the symbol of the variable (for its name and type), the number of the argument (0 if it is none), the
    scope (None for the compile unit), the line, the place and state->current_func.
    LLVMDIBuilderCreateGlobalVariableExpression (skull/codegen/llvm/debug.c:249-261), LLVMDIBuilderCreateAutoVariable
    (270-280), LLVMDIBuilderCreateParameterVariable (360-370). *)
Record vrec := mkvrec { r_sym : nat; r_arg : nat; r_scope : option dscope; r_line : N; r_place : place; r_func : option nat }.

(** DEBUG_INFO.scope, skull/codegen/llvm/debug.h, state->current_func, skull/codegen/llvm/shared.h, and the records so far. *)
Record vst := mkvst { e_scope : dscope; e_func : option nat; e_recs : list vrec }.
(** Assignments to DEBUG_INFO.scope and to state->current_func, e.g. skull/codegen/llvm/func.c:170-180. *)
Definition put_scope (s : vst) (c : dscope) : vst := mkvst c (e_func s) (e_recs s).
Definition put_func (s : vst) (f : option nat) : vst := mkvst (e_scope s) f (e_recs s).
(** Attaching a record, skull/codegen/llvm/debug.c:263, 282-289, 375-382. *)
Definition record (r : vrec) (s : vst) : vst := mkvst (e_scope s) (e_func s) (e_recs s ++ [r]).

Section Vars.
Variable ys : list symbol.
(** `symbol->location.line`, e.g. skull/codegen/llvm/debug.c:275. *)
Definition sym_line (k : nat) : N := match nth_error ys k with Some y => l_line (y_loc y) | None => 0%N end.
(** `var->is_const`, skull/semantic/variable.h. *)
Definition sym_const (k : nat) : bool := match nth_error ys k with Some (mksym _ _ (KVar v)) => v_const v | _ => false end.

(** gen_stmt_var_def, skull/codegen/llvm/assign.c:30-38, with setup_var_llvm (52-94), is_top_level (121-123), requires_alloca_decl (125-127),
    assign_value_to_var (99-119) and add_llvm_var_def_debug_info (debug.c:238-246). *)
Definition def_rec (s : vst) (k : nat) : vrec :=
  let is_global := match e_func s with None => true | Some _ => false end in
  let ref := if is_global then PGlobal else if negb (sym_const k) then PCell else PValue in
  if is_global then mkvrec k 0 None (sym_line k) ref (e_func s)
  else mkvrec k 0 (Some (e_scope s)) (sym_line k) ref (e_func s).

(** The loop over the parameters, skull/codegen/llvm/debug.c:353-383, with alloc_debug_function_param (389-406). *)
Fixpoint param_recs (s : vst) (line : N) (i : nat) (ks : list nat) : vst :=
  match ks with
  | [] => s
  | k :: ks => param_recs (record (mkvrec k (i + 1) (Some (e_scope s)) line PCell (e_func s)) s) line (i + 1) ks
  end.

(** gen_tree, skull/codegen/llvm/core.c:28-37. *)
Definition gen_tree_v (gen : tnode -> vst -> vst) :=
  fix go (l : list tnode) (s : vst) {struct l} : vst :=
    match l with
    | [] => s
    | n :: r => let s := gen n s in if stops (tn_type n) then s else go r s
    end.

(** gen_node, skull/codegen/llvm/core.c:39-64, as gen_node_w in Model_Where.v: gen_control_code_block (flow.c:264-286),
    gen_function_def (func.c:141-186) with add_llvm_func_debug_info (debug.c:308-387). *)
Fixpoint gen_node_v (n : tnode) (s : vst) {struct n} : vst :=
  match n with
  | mktnode ty tok p c =>
      match ty with
      | N_VAR_DEF => match p with XDef k _ => record (def_rec s k) s | _ => s end
      | N_IF | N_ELIF | N_WHILE | N_ELSE | N_NAMESPACE =>
          let old_di_scope := e_scope s in
          let s := put_scope s (ScBlock (e_scope s) (node_loc tok)) in
          let s := gen_tree_v gen_node_v c s in
          put_scope s old_di_scope
      | N_FUNCTION_PROTO =>
          match p with
          | XProto k ks =>
              if is_external ys k then s
              else
                let old_symbol := e_func s in
                let s := put_func s (Some k) in
                let old_di_scope := e_scope s in
                let s := put_scope s (ScFun (Some k)) in
                let s := param_recs s (sym_line k) 0 ks in
                let s := gen_tree_v gen_node_v c s in
                let s := put_func s old_symbol in
                put_scope s old_di_scope
          | _ => s
          end
      | _ => s
      end
  end.

(** gen_module, skull/codegen/llvm/core.c:17-23, from the scope that setup_debug_info leaves (debug.c:105). *)
Definition gen_module_v (l : list tnode) : list vrec := e_recs (gen_tree_v gen_node_v l (mkvst (ScFun None) None [])).
End Vars.
