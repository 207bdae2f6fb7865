(** Model of the LLVM back end: skull/codegen/llvm/{core,flow,func,assign,expr,shared}.c on
    the checked tree of Model_Sem.v.

    Basic blocks of all functions are numbered in the order in which they are made, so the
    order in which they are printed (LLVMMoveBasicBlockBefore and After) is left out; so are
    names, linkage, debug information and the walk through the scopes, which only debug
    information and the null checks at flow.c:281 and func.c:46 look at. Passing null to an
    LLVM function, a failing assertion and making a value of type void are undefined
    behaviour. *)
From Coq Require Import List Arith NArith ZArith Bool.
From Verif Require Import Base Model_Literal Model_Parse Model_Sem Spec_Run Spec_IR.
Import ListNotations.
Open Scope list_scope.
Open Scope nat_scope.

Section LLVM.
Variable H : host.
(** The IRBuilder of LLVM: what it returns instead of a new instruction, if anything. *)
Variable fold : iop -> operand H -> operand H -> option (operand H).
(** The symbols after the checks, see gen_module below, and BUILD_DATA.debug. *)
Variable ys : list symbol.
Variable debug : bool.

(** `ref`, `is_global` and `is_const_lit` of Variable, skull/semantic/variable.h:30-46. *)
Record ref := mkref { rf_val : operand H; rf_global : bool; rf_lit : bool }.

(** What is added to the module or called, in order: LLVMAddGlobal, skull/codegen/llvm/assign.c:65;
    LLVMAddFunction, func.c:66, with true if a body follows; LLVMBuildCall2, expr.c:458 and
    func.c:121. Model_Link.v gives these things names. *)
Inductive act := ActVar (k : nat) | ActFun (k : nat) (body : bool) | ActCall (f : callee).

(** SkullStateLLVM, skull/codegen/llvm/shared.h, with the module: the blocks, the place of
    the builder, the next register, the variables that have a `ref`, the initial values of
    global variables, the functions with their first block (None if external), the current
    loop, the current function (None for main), and what was added or called so far. *)
Record gst := mkgst {
  g_blocks : list (list (instr H));
  g_cur : nat;
  g_reg : nat;
  g_refs : list (nat * ref);
  g_glob : list (tv H);
  g_funs : list (nat * option nat);
  g_cond : option nat;
  g_end : option nat;
  g_func : option nat;
  g_log : list act }.

(** More code in the module, e.g. LLVMBuildRet at skull/codegen/llvm/flow.c:46. *)
Definition set_blocks (g : gst) (l : list (list (instr H))) : gst :=
  mkgst l (g_cur g) (g_reg g) (g_refs g) (g_glob g) (g_funs g) (g_cond g) (g_end g) (g_func g) (g_log g).
(** LLVMPositionBuilderAtEnd, e.g. skull/codegen/llvm/flow.c:112. *)
Definition position (g : gst) (b : nat) : gst :=
  mkgst (g_blocks g) b (g_reg g) (g_refs g) (g_glob g) (g_funs g) (g_cond g) (g_end g) (g_func g) (g_log g).
(** The number of a new register, e.g. LLVMBuildLoad2 at skull/codegen/llvm/expr.c:92. *)
Definition set_next (g : gst) (r : nat) : gst :=
  mkgst (g_blocks g) (g_cur g) r (g_refs g) (g_glob g) (g_funs g) (g_cond g) (g_end g) (g_func g) (g_log g).
(** `var->ref`, `var->is_global` and `var->is_const_lit`, skull/codegen/llvm/assign.c:61-65,
    86 and 107, func.c:154. *)
Definition set_ref (g : gst) (k : nat) (r : ref) : gst :=
  mkgst (g_blocks g) (g_cur g) (g_reg g) ((k, r) :: g_refs g) (g_glob g) (g_funs g) (g_cond g) (g_end g) (g_func g) (g_log g).
(** LLVMAddGlobal and LLVMSetInitializer, skull/codegen/llvm/assign.c:65-83. *)
Definition set_globs (g : gst) (k : nat) (l : list (tv H)) : gst :=
  mkgst (g_blocks g) (g_cur g) (g_reg g) (g_refs g) l (g_funs g) (g_cond g) (g_end g) (g_func g) (g_log g ++ [ActVar k]).
(** `func->ref`, skull/codegen/llvm/func.c:66. *)
Definition set_fun (g : gst) (k : nat) (b : option nat) : gst :=
  mkgst (g_blocks g) (g_cur g) (g_reg g) (g_refs g) (g_glob g) ((k, b) :: g_funs g) (g_cond g) (g_end g) (g_func g)
    (g_log g ++ [ActFun k (match b with Some _ => true | None => false end)]).
(** `current_while_cond` and `current_while_end`, skull/codegen/llvm/flow.c:108-109, 130-131. *)
Definition set_loop (g : gst) (c e : option nat) : gst :=
  mkgst (g_blocks g) (g_cur g) (g_reg g) (g_refs g) (g_glob g) (g_funs g) c e (g_func g) (g_log g).
(** `current_func`, skull/codegen/llvm/func.c:170 and 178. *)
Definition set_func (g : gst) (f : option nat) : gst :=
  mkgst (g_blocks g) (g_cur g) (g_reg g) (g_refs g) (g_glob g) (g_funs g) (g_cond g) (g_end g) f (g_log g).

(** LLVMAppendBasicBlockInContext, e.g. skull/codegen/llvm/flow.c:92. *)
Definition new_block (g : gst) : nat * gst := (List.length (g_blocks g), set_blocks g (g_blocks g ++ [[]])).
(** An instruction at the end of the current block, e.g. skull/codegen/llvm/flow.c:111, and one
    with a result, e.g. expr.c:92. *)
Definition logged (i : instr H) : list act := match i with ICall _ f _ => [ActCall f] | _ => [] end.
Definition emit (g : gst) (i : instr H) : gst :=
  mkgst (upd (g_blocks g) (g_cur g) (fun l => l ++ [i])) (g_cur g) (g_reg g) (g_refs g) (g_glob g) (g_funs g) (g_cond g) (g_end g) (g_func g)
    (g_log g ++ logged i).
Definition emit_reg (g : gst) (i : nat -> instr H) : operand H * gst :=
  (OReg (g_reg g), emit (set_next g (S (g_reg g))) (i (g_reg g))).
(** LLVMBuildNSWAdd and the like, skull/codegen/llvm/expr.c:206-287 and 383-621. *)
Definition build (o : iop) (a b : operand H) (g : gst) : operand H * gst :=
  match fold o a b with
  | Some c => (c, g)
  | None => emit_reg g (fun r => IBin r o a b)
  end.
(** LLVMIsConstant, skull/codegen/llvm/assign.c:59 and 106; the address of a global variable is
    constant, too. *)
Definition is_constant (o : operand H) : bool := match o with OVal _ | OGlob _ => true | _ => false end.
Definition constant_value (o : operand H) : tv H :=
  match o with OVal v => V v | OGlob n => Addr (AGlob n) | _ => Poison end.
(** LLVMConstNull, skull/codegen/llvm/assign.c:80. *)
Definition const_null (t : ty) : res (tv H) :=
  match t with
  | TInt => Ok (V (SvInt 0))
  | TFloat => Ok (V (SvFloat (h_zero H)))
  | TBool => Ok (V (SvBool false))
  | TRune => Ok (V (SvRune 0%N))
  | TStr | TRef _ => Ok Null
  | TVoid => UB
  end.

(** `symbol->var` and `symbol->func`, e.g. skull/codegen/llvm/expr.c:88 and func.c:105;
    `var->ref`, null excluded, e.g. expr.c:92. *)
Definition sym_var (k : nat) : res var :=
  do y <- deref ys k; match y_kind y with KVar v => Ok v | _ => UB end.
Definition sym_func (k : nat) : res func :=
  do y <- deref ys k; match y_kind y with KFunc f => Ok f | _ => UB end.
Definition var_ref (g : gst) (k : nat) : res ref :=
  match lookup (g_refs g) k with Some r => Ok r | None => UB end.

(** * Expressions *)

(** Expr, skull/codegen/llvm/fwd_decl.h: value and type (None if null). *)
Definition xres : Type := (operand H * option ty * gst).

(** gen_expr_identifier, skull/codegen/llvm/expr.c:84-106. *)
Definition gen_identifier (k : nat) (g : gst) : res xres :=
  do v <- sym_var k;
  do r <- var_ref g k;
  if rf_global r || negb (v_const v) then
    let '(o, g) := emit_reg g (fun n => ILoad n (v_type v) (rf_val r)) in Ok (o, Some (v_type v), g)
  else Ok (rf_val r, Some (v_type v), g).

(** gen_expr_deref, skull/codegen/llvm/expr.c:108-128. *)
Definition gen_deref (k : nat) (g : gst) : res xres :=
  do v <- sym_var k;
  do r <- var_ref g k;
  match v_type v with
  | TRef t =>
      let '(p, g) := emit_reg g (fun n => ILoad n (v_type v) (rf_val r)) in
      let '(o, g) := emit_reg g (fun n => ILoad n t p) in
      Ok (o, Some t, g)
  | _ => UB
  end.

(** gen_expr_ref, skull/codegen/llvm/expr.c:326-331. *)
Definition gen_ref (k : nat) (g : gst) : res xres :=
  do v <- sym_var k;
  do r <- var_ref g k;
  Ok (rf_val r, match v_type v with TRef t => Some t | _ => None end, g).

(** gen_expr_const, skull/codegen/llvm/expr.c:133-168. *)
Definition gen_const (v : value) (t : ty) (g : gst) : res xres :=
  match t, v with
  | TInt, VInt _ | TFloat, VFloat _ | TBool, VBool _ | TRune, VRune _ | TStr, VStr _ =>
      Ok (OVal (literal_of H v), Some t, g)
  | _, _ => UB
  end.

(** gen_expr_math_oper, skull/codegen/llvm/expr.c:176-196. *)
Definition gen_math (t : option ty) (oi of : iop) (l r : operand H) (g : gst) : res xres :=
  match t with
  | Some TInt => let '(o, g) := build oi l r g in Ok (o, t, g)
  | Some TFloat => let '(o, g) := build of l r g in Ok (o, t, g)
  | _ => UB
  end.
(** gen_expr_lshift and gen_expr_rshift, skull/codegen/llvm/expr.c:258-295. *)
Definition gen_shift (t : option ty) (o : iop) (l r : operand H) (g : gst) : res xres :=
  match t with
  | Some TInt => let '(v, g) := build o l r g in Ok (v, t, g)
  | _ => UB
  end.
(** create_and_call_builtin_oper, skull/codegen/llvm/expr.c:434-469. *)
Definition gen_builtin (f : callee) (t : ty) (l r : operand H) (g : gst) : res xres :=
  let '(o, g) := emit_reg g (fun n => ICall n f [l; r]) in Ok (o, Some t, g).
(** gen_expr_pow, skull/codegen/llvm/expr.c:300-321. *)
Definition gen_pow (t : option ty) (l r : operand H) (g : gst) : res xres :=
  match t with
  | Some TInt => gen_builtin CIntPow TInt l r g
  | Some TFloat => gen_builtin CFloatPow TFloat l r g
  | _ => UB
  end.
(** LLVMBuildNot, skull/codegen/llvm/expr.c:344 and 481: an exclusive or with true, for a value
    of one bit. *)
Definition build_not (r : operand H) (g : gst) : operand H * gst := build Xor r (OVal (SvBool true)) g.
(** gen_expr_is, skull/codegen/llvm/expr.c:374-409, with gen_expr_is_str, 414-427. *)
Definition gen_is (t : option ty) (l r : operand H) (g : gst) : res xres :=
  match t with
  | Some (TInt | TRune | TBool) => let '(o, g) := build IEq l r g in Ok (o, Some TBool, g)
  | Some TFloat => let '(o, g) := build FOeq l r g in Ok (o, Some TBool, g)
  | Some TStr => gen_builtin CStrcmp TBool l r g
  | _ => UB
  end.
(** gen_expr_is_not, skull/codegen/llvm/expr.c:474-488. *)
Definition gen_is_not (t : option ty) (l r : operand H) (g : gst) : res xres :=
  do (o, t, g) <- gen_is t l r g;
  let '(o, g) := build_not o g in Ok (o, t, g).
(** gen_expr_relational_oper, skull/codegen/llvm/expr.c:496-528. *)
Definition gen_order (t : option ty) (oi of : iop) (l r : operand H) (g : gst) : res xres :=
  match t with
  | Some TInt => let '(o, g) := build oi l r g in Ok (o, Some TBool, g)
  | Some TFloat => let '(o, g) := build of l r g in Ok (o, Some TBool, g)
  | _ => UB
  end.
(** gen_expr_logical_oper, skull/codegen/llvm/expr.c:579-589. *)
Definition gen_logical (t : option ty) (o : iop) (l r : operand H) (g : gst) : res xres :=
  let '(v, g) := build o l r g in Ok (v, t, g).

(** expr_type_to_func, skull/codegen/llvm/expr.c:624-647, with the functions at 201-253,
    533-574 and 594-622; t is the type of the right operand. *)
Definition gen_binary (b : binop) (t : option ty) (l r : operand H) (g : gst) : res xres :=
  match b with
  | BAdd => gen_math t NswAdd FAdd l r g
  | BSub => gen_math t NswSub FSub l r g
  | BMult => gen_math t NswMul FMul l r g
  | BDiv => gen_math t ExactSDiv FDiv l r g
  | BMod => gen_math t SRem FRem l r g
  | BLshift => gen_shift t Shl l r g
  | BRshift => gen_shift t LShr l r g
  | BPow => gen_pow t l r g
  | BIs => gen_is t l r g
  | BIsnt => gen_is_not t l r g
  | BLess => gen_order t ISlt FOlt l r g
  | BGtr => gen_order t ISgt FOgt l r g
  | BLessEq => gen_order t ISle FOle l r g
  | BGtrEq => gen_order t ISge FOge l r g
  | BAnd => gen_logical t And l r g
  | BOr => gen_logical t Or l r g
  | BXor => gen_logical t Xor l r g
  end.

(** gen_expr_unary_neg, skull/codegen/llvm/expr.c:352-369, and gen_expr_not, 336-347. *)
Definition gen_neg (t : option ty) (r : operand H) (g : gst) : res xres :=
  gen_math t NswSub FSub (match t with Some TInt => OVal (SvInt 0) | _ => OVal (SvFloat (h_zero H)) end) r g.
Definition gen_not (r : operand H) (g : gst) : res xres :=
  let '(o, g) := build_not r g in Ok (o, Some TBool, g).

(** The loop of gen_expr_func_call, skull/codegen/llvm/func.c:115-118. *)
Definition gen_args (gen : texpr -> gst -> res xres) :=
  fix go (n : nat) (args : list texpr) (g : gst) {struct args} : res (list (operand H) * gst) :=
    match n, args with
    | O, _ => Ok ([], g)
    | S _, [] => UB
    | S n, a :: r => do (o, _, g) <- gen a g; do (os, g) <- go n r g; Ok (o :: os, g)
    end.

(** gen_expr, skull/codegen/llvm/expr.c:52-79, with gen_expr_func_call,
    skull/codegen/llvm/func.c:101-136. `function->ref` is null for a function that was not
    generated yet. *)
Fixpoint gen_expr (x : texpr) (g : gst) {struct x} : res xres :=
  match x with
  | XVar _ k _ _ => gen_identifier k g
  | XConst _ v t => gen_const v t g
  | XCall _ k args _ =>
      do f <- sym_func k;
      do (os, g) <- gen_args gen_expr (N.to_nat (f_num f)) args g;
      match lookup (g_funs g) k with
      | Some _ => let '(o, g) := emit_reg g (fun n => ICall n (CSym k) os) in Ok (o, Some (f_ret f), g)
      | None => UB
      end
  | XUn URef (XVar _ k _ _) _ _ => gen_ref k g
  | XUn UDeref (XVar _ k _ _) _ _ => gen_deref k g
  | XUn UNeg r _ _ => do (o, t, g) <- gen_expr r g; gen_neg t o g
  | XUn UNot r _ _ => do (o, _, g) <- gen_expr r g; gen_not o g
  | XUn _ _ _ _ => UB
  | XBin b l r _ _ =>
      do (ol, _, g) <- gen_expr l g;
      do (or, t, g) <- gen_expr r g;
      gen_binary b t ol or g
  end.

(** * Variables *)

(** assign_value_to_var, skull/codegen/llvm/assign.c:99-119. *)
Definition assign_value_to_var (o : operand H) (k : nat) (g : gst) : res gst :=
  do v <- sym_var k;
  let global := match lookup (g_refs g) k with Some r => rf_global r | None => false end in
  let lit := match lookup (g_refs g) k with Some r => rf_lit r | None => false end in
  if v_const v && (negb global || is_constant o) then Ok (set_ref g k (mkref o global lit))
  else do r <- var_ref g k; Ok (emit g (IStore o (rf_val r))).

(** setup_var_llvm, skull/codegen/llvm/assign.c:52-94. A constant local variable has only
    the flags at first. *)
Definition setup_var_llvm (o : operand H) (k : nat) (g : gst) : res gst :=
  do v <- sym_var k;
  let lit := is_constant o in
  match g_func g with
  | None =>
      do init <- const_null (v_type v);
      let n := List.length (g_glob g) in
      let g := set_globs g k (g_glob g ++ [if lit then constant_value o else init]) in
      let g := set_ref g k (mkref (OGlob n) true lit) in
      if lit then Ok g else assign_value_to_var o k g
  | Some _ =>
      if v_const v then Ok (set_ref g k (mkref o false lit))
      else
        match v_type v with
        | TVoid => UB
        | _ =>
            let '(p, g) := emit_reg g (fun n => IAlloca n (v_type v)) in
            assign_value_to_var o k (set_ref g k (mkref p false lit))
        end
  end.

(** gen_stmt_var_def, skull/codegen/llvm/assign.c:30-38. *)
Definition gen_var_def (k : nat) (e : texpr) (g : gst) : res gst :=
  do (o, _, g) <- gen_expr e g; setup_var_llvm o k g.

(** gen_stmt_var_assign, skull/codegen/llvm/assign.c:43-50. *)
Definition gen_var_assign (k : nat) (e : texpr) (g : gst) : res gst :=
  do (o, _, g) <- gen_expr e g; assign_value_to_var o k g.

(** * Statements *)

(** What gen_tree returns, skull/codegen/llvm/core.c:28-37: None for (Expr){0}, else the type
    of the Expr. *)
Definition flow : Type := option (option ty).

(** gen_stmt_noop, skull/codegen/llvm/flow.c:51-65. *)
Definition gen_noop (g : gst) : gst :=
  if debug then
    let '(p, g) := emit_reg g (fun n => IAlloca n TInt) in emit g (IStore (OVal (SvInt 0)) p)
  else g.

(** gen_stmt_return, skull/codegen/llvm/flow.c:70-86. *)
Definition gen_return (p : tpay) (g : gst) : res (gst * flow) :=
  match p with
  | XExpr e => do (o, t, g) <- gen_expr e g; Ok (emit g (IRet (Some o)), Some t)
  | XNone => Ok (emit g (IRet None), Some (Some TVoid))
  | _ => UB
  end.

(** gen_stmt_break and gen_stmt_continue, skull/codegen/llvm/flow.c:246-258. *)
Definition gen_jump (b : option nat) (g : gst) : res (gst * flow) :=
  match b with Some b => Ok (emit g (IBr b), Some (Some TVoid)) | None => UB end.

(** The end of gen_control_code_block, skull/codegen/llvm/flow.c:285. *)
Definition branch_to (b : nat) (r : gst * flow) : gst :=
  match snd r with None => emit (fst r) (IBr b) | Some _ => fst r end.

(** `node->expr` of a condition, skull/codegen/llvm/flow.c:114-122, 200-212 and 228-240. *)
Definition gen_condition (p : tpay) (yes no : nat) (g : gst) : res gst :=
  match p with
  | XExpr e => do (o, _, g) <- gen_expr e g; Ok (emit g (ICondBr o yes no))
  | _ => UB
  end.

(** The test for an elif or else behind comments, skull/codegen/llvm/flow.c:166-175 and
    189-192. *)
Fixpoint branch_follows (l : list tnode) : bool :=
  match l with
  | n :: r => match tn_type n with N_COMMENT => branch_follows r | N_ELIF | N_ELSE => true | _ => false end
  | [] => false
  end.

(** gen_control_while, skull/codegen/llvm/flow.c:91-132; `body` generates the block. *)
Definition gen_while (body : gst -> res (gst * flow)) (p : tpay) (g : gst) : res gst :=
  let '(c, g) := new_block g in
  let '(b, g) := new_block g in
  let '(e, g) := new_block g in
  let g := set_loop g (Some c) (Some e) in
  let g := position (emit g (IBr c)) c in
  do g <- gen_condition p b e g;
  do r <- body (position g b);
  Ok (set_loop (position (branch_to c r) e) None None).

(** The parameters in gen_function_def, skull/codegen/llvm/func.c:148-157. *)
Fixpoint gen_params (i : nat) (ps : list nat) (g : gst) : gst :=
  match ps with
  | [] => g
  | k :: r => gen_params (S i) r (set_ref g k (mkref (OArg i) false false))
  end.

(** alloc_debug_function_param, skull/codegen/llvm/debug.c:389-406, for the parameters of a
    function (debug.c:352-386): each gets a cell, which holds the argument. `is_const` is
    cleared in gen_module. *)
Fixpoint debug_params (ps : list nat) (g : gst) : res gst :=
  match ps with
  | [] => Ok g
  | k :: r =>
      do v <- sym_var k;
      do old <- var_ref g k;
      let '(p, g) := emit_reg g (fun n => IAlloca n (v_type v)) in
      debug_params r (set_ref (emit g (IStore (rf_val old) p)) k (mkref p false false))
  end.
(** add_llvm_func_debug_info, skull/codegen/llvm/debug.c:308-386, without the debug
    information. *)
Definition func_debug_info (ps : list nat) (g : gst) : res gst := if debug then debug_params ps g else Ok g.

(** Where gen_node stands: at a statement, or, behind an if or elif, at the nodes before the
    elif or else that follows, whose code goes to the block `entry`. *)
Inductive mode := Statement | Branch (entry last : nat).

(** The end of gen_function_def, skull/codegen/llvm/func.c:178-183. *)
Definition end_func (f : func) (fl : flow) (old : option nat) (g : gst) : gst :=
  let g := set_func g old in
  let void := match fl with Some (Some TVoid) => true | _ => false end in
  if ty_eqb (f_ret f) TVoid && negb void then emit g (IRet None) else g.

(** gen_stmt_func_decl, skull/codegen/llvm/func.c:36-48, with add_func, 53-78,
    parse_func_param, 83-96, and gen_function_def, 141-186. *)
Definition gen_func_decl (body : gst -> res (gst * flow)) (k : nat) (ps : list nat) (g : gst) : res gst :=
  do f <- sym_func k;
  if existsb (fun t => ty_eqb t TVoid) (f_params f) then UB
  else if f_external f then Ok (set_fun g k None)
  else
    let '(b, g1) := new_block g in
    let g1 := gen_params 0 ps (set_fun g1 k (Some b)) in
    do g1 <- func_debug_info ps (set_func (position g1 b) (Some k));
    do (g2, fl) <- body g1;
    Ok (position (end_func f fl (g_func g) g2) (g_cur g)).

(** One branch of an if: gen_control_if_, skull/codegen/llvm/flow.c:160-244, up to the
    branches that follow. Returns the block for the next branch, or `last`. *)
Definition gen_branch (body : gst -> res (gst * flow)) (p : tpay) (follows : bool) (entry last : nat) (g : gst)
    : res (nat * gst) :=
  let '(t, g) := new_block g in
  do r <- body (position g t);
  let g := position (branch_to last r) entry in
  let '(f, g) := if follows then new_block g else (last, g) in
  do g <- gen_condition p t f g;
  Ok (f, g).

(** gen_tree, skull/codegen/llvm/core.c:28-37, with gen_node, 39-64, gen_control_if,
    skull/codegen/llvm/flow.c:137-148, and gen_control_namespace, 153-155. *)
Definition gen_list (body : tnode -> gst -> res (gst * flow)) :=
  fix go (m : mode) (l : list tnode) (g : gst) {struct l} : res (gst * flow) :=
    match l with
    | [] => match m with Statement => Ok (g, None) | Branch _ _ => UB end
    | n :: r =>
        let conditional entry last g :=
          do (f, g) <- gen_branch (body n) (tn_pay n) (branch_follows r) entry last g;
          if branch_follows r then go (Branch f last) r g else go Statement r (position g last) in
        match m with
        | Branch entry last =>
            match tn_type n with
            | N_COMMENT => go m r g
            | N_ELIF => conditional entry last g
            | N_ELSE => do x <- body n (position g entry); go Statement r (position (branch_to last x) last)
            | _ => UB
            end
        | Statement =>
            match tn_type n, tn_pay n with
            | N_IF, _ => let entry := g_cur g in let '(last, g) := new_block g in conditional entry last g
            | N_WHILE, p => do g <- gen_while (body n) p g; go Statement r g
            | N_RETURN, p => gen_return p g
            | N_UNREACHABLE, _ => Ok (emit g IUnreachable, Some (Some TVoid))
            | N_FUNCTION_PROTO, XProto k ps => do g <- gen_func_decl (body n) k ps g; go Statement r g
            | N_VAR_DEF, XAlias => go Statement r g
            | N_VAR_DEF, XDef k e => do g <- gen_var_def k e g; go Statement r g
            | N_VAR_ASSIGN, XSet k e => do g <- gen_var_assign k e g; go Statement r g
            | N_EXPR, XExpr (XCall t k a ty) => do (_, g) <- gen_expr (XCall t k a ty) g; go Statement r g
            | N_NOOP, _ => go Statement r (gen_noop g)
            | N_BREAK, _ => gen_jump (g_end g) g
            | N_CONTINUE, _ => gen_jump (g_cond g) g
            | N_NAMESPACE, _ => do (g, _) <- body n g; go Statement r g
            | (N_IMPORT | N_COMMENT), _ => go Statement r g
            | _, _ => UB
            end
        end
    end.
(** gen_tree(node->child, state), e.g. skull/codegen/llvm/flow.c:275. *)
Fixpoint gen_body (n : tnode) (g : gst) {struct n} : res (gst * flow) :=
  match n with mktnode _ _ _ child => gen_list gen_body Statement child g end.
Definition gen_tree (l : list tnode) (g : gst) : res (gst * flow) := gen_list gen_body Statement l g.

(** setup_llvm_state, skull/codegen/llvm/shared.c:19-66. *)
Definition setup_llvm_state : gst := mkgst [[]] 0 0 [] [] [] None None None [].

End LLVM.

(** `var->is_const = false`, skull/codegen/llvm/debug.c:405. *)
Definition set_mutable (y : symbol) : symbol :=
  match y_kind y with
  | KVar v => put_kind (KVar (mkvar (v_type v) false (v_reassigned v) (v_read v) (v_implicit v) (v_exported v) (v_defined v) (v_cexpr v))) y
  | _ => y
  end.
(** The parameters of the functions that gen_function_def, skull/codegen/llvm/func.c:141-186,
    is called for. *)
Fixpoint params_below (ys : list symbol) (n : tnode) : list nat :=
  match n with
  | mktnode _ _ p child =>
      match p with XProto k ps => if is_external ys k then [] else ps | _ => [] end ++ flat_map (params_below ys) child
  end.
(** The symbols that the generator works with. debug.c:405 clears `is_const` of a parameter
    at the start of its function; no code refers to the parameter before, so that here it is
    cleared for all of them at once. *)
Definition debug_syms (ys : list symbol) (debug : bool) (l : list tnode) : list symbol :=
  if debug then fold_right (fun k ys => upd ys k set_mutable) ys (flat_map (params_below ys) l) else ys.

(** gen_module, skull/codegen/llvm/core.c:17-23, with gen_stmt_implicit_main_return,
    flow.c:42-49. *)
Definition gen_module (H : host) (fold : iop -> operand H -> operand H -> option (operand H)) (ys : list symbol) (debug : bool)
    (l : list tnode) : res (module H) :=
  do (g, fl) <- gen_tree H fold (debug_syms ys debug l) debug l (setup_llvm_state H);
  let g := match fl with None => emit H g (IRet (Some (OVal (SvInt 0)))) | Some _ => g end in
  Ok (mkmodule H (g_blocks H g) (g_funs H g) 0 (g_glob H g)).
