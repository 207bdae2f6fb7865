(** Model of the C back end behind expressions: statements, functions, globals and the file
    that is written, skull/codegen/c/{assign,flow,func,core,shared,types,debug,write}.c. *)
From Coq Require Import List Arith NArith ZArith Bool Ascii String.
From Verif Require Import Base Model_Token Model_Literal Model_Parse Model_Sem Model_Names Model_CGen.
Import ListNotations.
Open Scope list_scope.
Open Scope N_scope.

(** SkullStateC, skull/codegen/c/shared.h:5-12, without `tree`, which gen_module_c stores once.
    None is NULL. *)
Record cst := mkcst {
  k_globals : option text;
  k_int_pow : bool;
  k_float_pow : bool;
  k_strcmp : bool;
  k_indent : N }.

(** setup_c_state, skull/codegen/c/shared.c:10-14. *)
Definition setup_c_state : cst := mkcst None false false false 0.

(** Assignments to single fields, skull/codegen/c/assign.c:82-95 and 136-155,
    skull/codegen/c/func.c:31-37 and 91-93, skull/codegen/c/core.c:21 and 43. *)
Definition set_globals (g : cst) (t : text) : cst :=
  mkcst (Some t) (k_int_pow g) (k_float_pow g) (k_strcmp g) (k_indent g).
Definition set_indent (g : cst) (n : N) : cst :=
  mkcst (k_globals g) (k_int_pow g) (k_float_pow g) (k_strcmp g) n.

(** `old_globals ? old_globals : ""`, skull/codegen/c/assign.c:85, 93, 138, 150. *)
Definition old_globals (g : cst) : text := match k_globals g with Some t => t | None => [] end.

(** The flags that gen_expr_binary_c sets, skull/codegen/c/expr.c:102, 111, 126, 130. *)
Definition note_binary (o : binop) (l t : ty) (g : cst) : cst :=
  match o with
  | BIs | BIsnt =>
      if ty_eqb l TStr then mkcst (k_globals g) (k_int_pow g) (k_float_pow g) true (k_indent g) else g
  | BPow =>
      if ty_eqb t TInt then mkcst (k_globals g) true (k_float_pow g) (k_strcmp g) (k_indent g)
      else if ty_eqb t TFloat then mkcst (k_globals g) (k_int_pow g) true (k_strcmp g) (k_indent g)
      else g
  | _ => g
  end.

(** What gen_expr_c, skull/codegen/c/expr.c:21-200, does to the state: only the flags. The text
    is gen_expr_c of Model_CGen.v. *)
Fixpoint note_expr (env : cctx) (x : texpr) (g : cst) {struct x} : cst :=
  match x with
  | XConst _ _ _ | XVar _ _ _ _ => g
  | XBin o l r ty _ => note_expr env r (note_expr env l (note_binary o (x_ty l) ty g))
  | XUn _ r _ _ => note_expr env r g
  | XCall _ k args _ =>
      match nth_error (ce_syms env) k with
      | Some (mksym _ _ (KFunc f)) =>
          (fix go (n : nat) (args : list texpr) (g : cst) {struct args} : cst :=
             match n, args with
             | S n, a :: r => go n r (note_expr env a g)
             | _, _ => g
             end) (N.to_nat (f_num f)) args g
      | _ => g
      end
  end.
(** gen_expr_c with its effect on the state. *)
Definition expr_c (env : cctx) (x : texpr) (g : cst) : res (text * cst) :=
  do t <- gen_expr_c env x; Ok (t, note_expr env x g).

(** get_indentation, skull/codegen/c/shared.c:16-31, with MAX_TABS, 8. *)
Definition get_indentation (g : cst) : text :=
  repeat 9 (N.to_nat (if 64 <=? k_indent g then 63 else k_indent g)).

(** skull_type_to_c_type, skull/codegen/c/types.c:7-27, with the names of types.h:7-12. *)
Fixpoint skull_type_to_c_type (t : ty) : text :=
  match t with
  | TInt => u "int64_t"
  | TFloat => u "double"
  | TRune => u "char32_t"
  | TStr => u "char*"
  | TBool => u "bool"
  | TVoid => u "void"
  | TRef t => skull_type_to_c_type t ++ u "*"
  end.

(** `symbol->var`, e.g. skull/codegen/c/assign.c:37, and the name of the symbol. *)
Definition sym_var_c (env : cctx) (k : nat) : res (text * var) :=
  do y <- deref (ce_syms env) k;
  match y_kind y with KVar v => Ok (y_name y, v) | _ => UB end.

(** `linkage_name`, e.g. skull/codegen/c/assign.c:88; printing NULL is undefined. *)
Definition linkage (env : cctx) (k : nat) : res text :=
  match ce_linkage env k with Some t => Ok t | None => UB end.

(** A double quote. *)
Definition quote : text := [34].

(** gen_stmt_var_assign_c_, skull/codegen/c/assign.c:54-65. *)
Definition gen_stmt_var_assign_c_ (env : cctx) (name : text) (e : texpr) (g : cst) : res (text * cst) :=
  do (x, g) <- expr_c env e g;
  Ok (name ++ u " = " ++ x ++ u ";", g).

(** gen_stmt_var_assign_c, skull/codegen/c/assign.c:27-33. *)
Definition gen_stmt_var_assign_c (env : cctx) (k : nat) (e : texpr) (g : cst) : res (text * cst) :=
  do (name, v) <- sym_var_c env k;
  gen_stmt_var_assign_c_ env name e g.

(** gen_stmt_constexpt_global_var, skull/codegen/c/assign.c:119-159; the expression of the
    variable is the one of its definition (skull/semantic/assign.c:52). *)
Definition gen_stmt_constexpt_global_var (env : cctx) (k : nat) (name : text) (v : var) (e : texpr) (g : cst)
    : res cst :=
  let type := skull_type_to_c_type (v_type v) in
  do (value, g) <- expr_c env e g;
  if v_exported v then
    if v_const v then
      do l <- linkage env k;
      Ok (set_globals g (old_globals g ++ [10] ++ u "const " ++ type ++ u " " ++ name ++ u " __asm__(" ++
                         quote ++ l ++ quote ++ u ") = " ++ value ++ u ";"))
    else UB
  else
    Ok (set_globals g (old_globals g ++ [10] ++ (if v_const v then u "static const " else u "static ") ++
                       type ++ u " " ++ name ++ u " = " ++ value ++ u ";")).

(** gen_stmt_global_var, skull/codegen/c/assign.c:67-100. *)
Definition gen_stmt_global_var (env : cctx) (k : nat) (name : text) (v : var) (e : texpr) (g : cst)
    : res (option text * cst) :=
  let type := skull_type_to_c_type (v_type v) in
  match v_cexpr v with
  | None => UB
  | Some true => do g <- gen_stmt_constexpt_global_var env k name v e g; Ok (None, g)
  | Some false =>
      do g <- (if v_exported v then
                 do l <- linkage env k;
                 Ok (set_globals g (old_globals g ++ [10] ++ type ++ u " " ++ name ++ u " __asm__(" ++
                                    quote ++ l ++ quote ++ u ");"))
               else Ok (set_globals g (old_globals g ++ [10] ++ u "static " ++ type ++ u " " ++ name ++ u ";")));
      do (t, g) <- gen_stmt_var_assign_c_ env name e g;
      Ok (Some t, g)
  end.

(** gen_stmt_stack_var, skull/codegen/c/assign.c:102-117. *)
Definition gen_stmt_stack_var (env : cctx) (name : text) (v : var) (e : texpr) (g : cst) : res (text * cst) :=
  do (x, g) <- expr_c env e g;
  Ok ((if v_const v then u "const " else []) ++ skull_type_to_c_type (v_type v) ++ u " " ++ name ++ u " = " ++
      x ++ u ";", g).

(** gen_stmt_var_def_c, skull/codegen/c/assign.c:35-52. *)
Definition gen_stmt_var_def_c (env : cctx) (k : nat) (e : texpr) (g : cst) : res (option text * cst) :=
  do (name, v) <- sym_var_c env k;
  if k_indent g =? 1 then gen_stmt_global_var env k name v e g
  else do (t, g) <- gen_stmt_stack_var env name v e g; Ok (Some t, g).

(** `node->expr`, the member of the union that the checks have filled. *)
Definition node_expr (p : tpay) : res texpr := match p with XExpr e => Ok e | _ => UB end.

(** gen_stmt_return_c, skull/codegen/c/flow.c:14-22. *)
Definition gen_stmt_return_c (env : cctx) (p : tpay) (g : cst) : res (text * cst) :=
  match p with
  | XNone => Ok (u "return;", g)
  | _ => do e <- node_expr p; do (x, g) <- expr_c env e g; Ok (u "return " ++ x ++ u ";", g)
  end.

(** gen_stmt_func_call_c, skull/codegen/c/func.c:17-23. *)
Definition gen_stmt_func_call_c (env : cctx) (p : tpay) (g : cst) : res (text * cst) :=
  do e <- node_expr p; do (x, g) <- expr_c env e g; Ok (x ++ u ";", g).

(** What the statements of a block are generated by: gen_tree_c on the child. *)
Definition sub_tree := cst -> res (option text * cst).

(** `%s` with a pointer that may be NULL. *)
Definition str_arg (t : option text) : res text := match t with Some t => Ok t | None => UB end.

(** gen_control_block_c, skull/codegen/c/flow.c:80-92; the format is `word (%s) {\n%s\n%s}`. *)
Definition gen_control_block_c (env : cctx) (word : text) (p : tpay) (sub : sub_tree) (g : cst)
    : res (text * cst) :=
  do e <- node_expr p;
  do (x, g) <- expr_c env e g;
  do (t, g) <- sub g;
  do t <- str_arg t;
  Ok (word ++ u " (" ++ x ++ u ") {" ++ [10] ++ t ++ [10] ++ get_indentation g ++ u "}", g).

(** gen_control_else_c, skull/codegen/c/flow.c:55-61. *)
Definition gen_control_else_c (sub : sub_tree) (g : cst) : res (text * cst) :=
  do (t, g) <- sub g;
  do t <- str_arg t;
  Ok (u "else {" ++ [10] ++ t ++ [10] ++ get_indentation g ++ u "}", g).

(** gen_control_namespace_c, skull/codegen/c/flow.c:67-78. *)
Definition gen_control_namespace_c (env : cctx) (p : tpay) (sub : sub_tree) (g : cst) : res (text * cst) :=
  match p with
  | XSpace k =>
      do (t, g) <- sub g;
      do y <- deref (ce_syms env) k;
      do t <- str_arg t;
      Ok (quote ++ y_name y ++ quote ++ u "; {" ++ [10] ++ t ++ [10] ++ get_indentation g ++ u "}", g)
  | _ => UB
  end.

(** apply_debug_info, skull/codegen/c/debug.c:8-21. *)
Definition apply_debug_info (env : cctx) (tok : list token) (t : text) : res text :=
  if ce_debug env then
    match tok with
    | [] => UB
    | k :: _ =>
        Ok (u "#line " ++ fmt_li (Z.of_N (l_line (t_loc k))) ++ u " " ++ quote ++ ce_file env ++ quote ++ [10] ++ t)
    end
  else Ok t.

(** gen_param_c, skull/codegen/c/func.c:117-124. *)
Definition gen_param_c (env : cctx) (k : nat) : res text :=
  do (name, v) <- sym_var_c env k;
  Ok (skull_type_to_c_type (v_type v) ++ u " " ++ name).

(** The loop over the parameters, skull/codegen/c/func.c:46-62. *)
Fixpoint params_c (env : cctx) (n : nat) (ks : list nat) (list : option text) : res (option text) :=
  match n, ks with
  | O, _ => Ok list
  | S _, [] => UB
  | S n, k :: ks =>
      do p <- gen_param_c env k;
      params_c env n ks (Some (match list with Some old => old ++ u ", " ++ p | None => p end))
  end.

(** gen_function_prototype_c, skull/codegen/c/func.c:40-115. *)
Definition gen_function_prototype_c (env : cctx) (tok : list token) (k : nat) (ks : list nat) (sub : sub_tree)
    (g : cst) : res (text * cst) :=
  do y <- deref (ce_syms env) k;
  match y_kind y with
  | KFunc f =>
      do list <- params_c env (N.to_nat (f_num f)) ks None;
      let list := match list with Some t => t | None => u "void" end in
      let type := skull_type_to_c_type (f_ret f) in
      do fwd <- (if f_export f then
                   do l <- linkage env k;
                   Ok (type ++ u " " ++ y_name y ++ u "(" ++ list ++ u ") __asm__(" ++ quote ++ l ++ quote ++ u ");" ++
                       [10])
                 else Ok []);
      if f_external f then
        if f_export f then Ok (fwd, g)
        else Ok (type ++ u " " ++ y_name y ++ u "(" ++ list ++ u ");", g)
      else
        let indent := k_indent g in
        do (t, g) <- sub (set_indent g 0);
        let g := set_indent g indent in
        do t <- str_arg t;
        do out <- apply_debug_info env tok
          (fwd ++ (if f_export f then [] else u "static ") ++ type ++ u " " ++ y_name y ++ u "(" ++ list ++
           u ") {" ++ [10] ++ t ++ [10] ++ u "}");
        Ok (out, g)
  | _ => UB
  end.

(** gen_function_def_c, skull/codegen/c/func.c:25-38. *)
Definition gen_function_def_c (env : cctx) (tok : list token) (k : nat) (ks : list nat) (sub : sub_tree) (g : cst)
    : res cst :=
  do (f, g) <- gen_function_prototype_c env tok k ks sub g;
  Ok (set_globals g (match k_globals g with Some old => old ++ [10] ++ f | None => f end)).

(** gen_tree_c, skull/codegen/c/core.c:20-46, with its loop. *)
Definition tree_loop_c (gen : tnode -> cst -> res (option text * cst)) :=
  fix go (l : list tnode) (acc : option text) (g : cst) {struct l} : res (option text * cst) :=
    match l with
    | [] => Ok (acc, g)
    | n :: r =>
        do (t, g) <- gen n g;
        go r (match t, acc with
              | Some t, Some old => Some (old ++ [10] ++ t)
              | Some t, None => Some t
              | None, _ => acc
              end) g
    end.
Definition gen_tree_with (gen : tnode -> cst -> res (option text * cst)) (l : list tnode) (g : cst)
    : res (option text * cst) :=
  do (t, g) <- tree_loop_c gen l None (set_indent g (k_indent g + 1));
  Ok (t, set_indent g (k_indent g - 1)).

(** gen_node_c, skull/codegen/c/core.c:48-74, with apply_indentation, 76-82. The symbols of
    nodes that no check has looked at are NULL. *)
Fixpoint gen_node_c (env : cctx) (n : tnode) (g : cst) {struct n} : res (option text * cst) :=
  match n with
  | mktnode ty tok p child =>
      let sub := gen_tree_with (gen_node_c env) child in
      let some (r : res (text * cst)) : res (option text * cst) := do (t, g) <- r; Ok (Some t, g) in
      do (str, g) <-
        match ty with
        | N_VAR_DEF =>
            match p with
            | XAlias => Ok (None, g)
            | XDef k e => gen_stmt_var_def_c env k e g
            | _ => UB
            end
        | N_VAR_ASSIGN => match p with XSet k e => some (gen_stmt_var_assign_c env k e g) | _ => UB end
        | N_RETURN => some (gen_stmt_return_c env p g)
        | N_NOOP => Ok (Some (u "(void)0;"), g)
        | N_EXPR => some (gen_stmt_func_call_c env p g)
        | N_IF => some (gen_control_block_c env (u "if") p sub g)
        | N_ELIF => some (gen_control_block_c env (u "else if") p sub g)
        | N_ELSE => some (gen_control_else_c sub g)
        | N_WHILE => some (gen_control_block_c env (u "while") p sub g)
        | N_UNREACHABLE => Ok (Some (u "while (1) {}"), g)
        | N_FUNCTION_PROTO =>
            match p with
            | XProto k ks => do g <- gen_function_def_c env tok k ks sub g; Ok (None, g)
            | _ => UB
            end
        | N_NAMESPACE => some (gen_control_namespace_c env p sub g)
        | N_BREAK => Ok (Some (u "break;"), g)
        | N_CONTINUE => Ok (Some (u "continue;"), g)
        | N_UNKNOWN | N_IMPORT | N_COMMENT => Ok (None, g)
        end;
      match str with
      | None => Ok (None, g)
      | Some t => do t <- apply_debug_info env tok (get_indentation g ++ t); Ok (Some t, g)
      end
  end.
Definition gen_tree_c (env : cctx) (l : list tnode) (g : cst) : res (option text * cst) :=
  gen_tree_with (gen_node_c env) l g.

(** The lines of a text of several lines. *)
Definition lines (l : list string) : text := List.concat (map (fun s => u s ++ [10]) l).

(** The helper functions and the includes, skull/codegen/c/write.c:92-121; tabs are spelled out. *)
Definition tab (n : nat) (s : string) : text := repeat 9 n ++ u s ++ [10].
Definition headers_c : text := lines ["#include <stdint.h>"; "#include <uchar.h>"]%string.
Definition strcmp_c : text :=
  u "_Bool _strcmp(const char *a, const char *b) {" ++ [10] ++
  tab 1 "while (*a && *b) {" ++ tab 2 "if (*a != *b) {" ++ tab 3 "return 0;" ++ tab 2 "}" ++ tab 2 "a++;" ++
  tab 2 "b++;" ++ tab 1 "}" ++ [10] ++ tab 1 "return !*a && !*b;" ++ tab 0 "}".
Definition float_pow_c : text :=
  lines ["#include <math.h>"; "double (*_float_pow)(double, double) = pow;"]%string.
Definition int_pow_c : text :=
  u "int64_t _int_pow(int64_t base, int64_t exp) {" ++ [10] ++
  tab 1 "int64_t result = base;" ++ tab 1 "for (int64_t i = 1; i < exp; i++) result *= base;" ++
  tab 1 "return result;" ++ tab 0 "}".

(** print_builtins and print_globals, skull/codegen/c/write.c:52-60. *)
Definition print_builtins (g : cst) : text :=
  (if k_strcmp g then strcmp_c ++ [10] else []) ++ (if k_int_pow g then int_pow_c ++ [10] else []) ++
  (if k_float_pow g then float_pow_c ++ [10] else []).
Definition print_globals (g : cst) : text :=
  match k_globals g with Some t => t ++ [10; 10] | None => [] end.

(** print_main_shim, skull/codegen/c/write.c:62-95. *)
Definition print_main_shim (env : cctx) (module_name : text) (tree : option text) : text :=
  let line := if ce_debug env then u "#line 1 " ++ quote ++ ce_file env ++ quote ++ [10] else [] in
  line ++ u "static int init(void) __asm__(" ++ quote ++ module_name ++ quote ++ u ");" ++ [10] ++
  u "static int init(void) {" ++ [10] ++ (match tree with Some t => t | None => [] end) ++ [10] ++
  [9] ++ u "return 0;" ++ [10] ++ u "}" ++ [10] ++
  line ++ u "int main(void) { return init(); }" ++ [10].

(** gen_module_c, skull/codegen/c/core.c:16-18, and what write_file_c, skull/codegen/c/write.c:28-46,
    prints to its file. *)
Definition c_file (env : cctx) (l : list tnode) : res text :=
  do (tree, g) <- gen_tree_c env l setup_c_state;
  do m <- create_main_func_name (Some (ce_file env));
  Ok (headers_c ++ [10] ++ print_builtins g ++ print_globals g ++ print_main_shim env m tree).
