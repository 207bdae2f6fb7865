(** Model of the semantic checks: skull/semantic/{entry,flow,func,assign,expr,scope,symbol,
    variable,unused,shared,import}.c and skull/semantic/types.c:173-329.

    Types are terms, not pointers: Prop_Types.v proves that two pointers to types are
    equal exactly if the terms are. The hash table of a scope is an association list:
    Prop_HashTable.v proves that the table is a map whose first entry for a key stays.
    What the checks store in the tree (`symbol`, `type`, `value`, `is_const_expr`) is
    returned as a second tree. Once a check returns false all callers return false
    without looking at the state, so a rejected program has messages but no state.
    Freeing, running out of memory or stack, and `linkage_name` are not modelled. *)
From Coq Require Import List Arith NArith ZArith Bool Lia Ascii String.
From Verif Require Import Base Model_Token Model_Utf8 Model_Classify Model_Literal Model_Parse.
Import ListNotations.
Open Scope list_scope.
Open Scope N_scope.

(** Type, skull/semantic/types.h:28-42, and the builtin types, skull/semantic/types.c:220-225. *)
Inductive ty := TBool | TInt | TFloat | TRune | TStr | TVoid | TRef (inner : ty).

(** `==` on `const Type *`, e.g. skull/semantic/expr.c:76. *)
Fixpoint ty_eqb (a b : ty) : bool :=
  match a, b with
  | TBool, TBool | TInt, TInt | TFloat, TFloat | TRune, TRune | TStr, TStr | TVoid, TVoid => true
  | TRef a, TRef b => ty_eqb a b
  | _, _ => false
  end.

(** SymbolType without SYMBOL_UNKNOWN, skull/semantic/symbol.h:10-16. *)
Inductive symtype := Y_VAR | Y_FUNC | Y_ALIAS | Y_SPACE.

(** The codes of the messages of these phases, skull/common/errors.h:14-93, with the parts of
    the message (Message, errors.h:102-113) that are to be written; Model_Errors.v writes
    them. Tokens are written later: their text does not change. *)
Inductive scode :=
| S_NOT_INT
| S_FUNC_TYPE_MISMATCH (want got : ty)
| S_EXPECTED_SAME_TYPE (want got : ty)
| S_VAR_NOT_FOUND (name : text)
| S_MISSING_DECLARATION (t : token)
| S_MISSING_BLOCK (word : text)
| S_NO_VOID_ASSIGN (t : list token)
| S_VAR_ALREADY_DEFINED (name : text)
| S_NON_INT_MAIN (t : token)
| S_NON_BOOL_EXPR
| S_NO_REDEFINE_FUNC (name : text)
| S_ZERO_PARAM_FUNC
| S_SHADOW_VAR (name : text)
| S_EXPECTED_RETURN (name : text)
| S_NO_VOID_RETURN (name : text)
| S_ELSE_ELIF_MISSING_IF
| S_UNEXPECTED_CODE_BLOCK
| S_UNREACHABLE_CODE
| S_REASSIGN_CONST (t : token)
| S_NO_DANGLING_EXPR
| S_REDUNDANT_REASSIGN (t : token)
| S_DIV_BY_ZERO
| S_NO_NESTED (t : token)
| S_TYPE_NOT_FOUND (t : list token)
| S_ALIAS_ALREADY_DEFINED (name : text)
| S_RETURN_MISSING_EXPR
| S_INVALID_NUM_PARAMS
| S_POW_BAD_TYPE (got : ty)
| S_WARN_VAR_NOT_CONST (name : text)
| S_WARN_VAR_UNUSED (name : text)
| S_WARN_FUNC_UNUSED (name : text)
| S_WARN_COND_ALWAYS_TRUE
| S_WARN_COND_ALWAYS_FALSE
| S_WARN_TRIVIAL_TYPE (t : ty)
| S_NOT_NUMERIC
| S_BREAK_NOT_IN_WHILE
| S_CONTINUE_NOT_IN_WHILE
| S_NO_MUT_TYPE_ALIAS
| S_NO_TYPE_EXPR
| S_REF_IDENT_ONLY
| S_CANNOT_DEREF
| S_LOAD_MODULE (name : text)
| S_NO_REDEFINE_X_AS_Y (old : symtype) (name : text) (new : symtype)
| S_LITERAL (t : token) (e : literr).

(** One message (skull/common/errors.c:114-119): code and location of the first part. *)
Record smsg := mksmsg { sm_code : scode; sm_loc : option location }.

(** Variable, skull/semantic/variable.h:30-46; `v_cexpr` is None if `expr` is null and
    else `expr->is_const_expr`, which never changes once the pointer is stored. *)
Record var := mkvar {
  v_type : ty;
  v_const : bool;
  v_reassigned : bool;
  v_read : bool;
  v_implicit : bool;
  v_exported : bool;
  v_defined : bool;
  v_cexpr : option bool }.

(** FunctionDeclaration, skull/semantic/func.h:18-33, without the fields of the backends. *)
Record func := mkfunc {
  f_external : bool;
  f_export : bool;
  f_ret : ty;
  f_num : N;
  f_params : list ty;
  f_called : bool }.

(** Symbol, skull/semantic/symbol.h:18-29: `type` with the union. `expr_type` is kept for
    aliases only, it is not read elsewhere. *)
Inductive kind :=
| KVar (v : var)
| KFunc (f : func)
| KAlias (t : option ty)
| KSpace (sc : option nat).
Record symbol := mksym { y_name : text; y_loc : location; y_kind : kind }.

(** Scope, skull/semantic/scope.h:18-24. Pointers are positions in the list of all scopes
    and of all symbols; the latest entry of a table comes first. *)
Record scope := mkscope {
  c_syms : option (list (text * nat));
  c_next : option nat;
  c_last : option nat;
  c_child : option nat;
  c_parent : option nat }.

(** SemanticState, skull/semantic/shared.h:12-21, with the heap and the messages (latest
    first). *)
Record sst := mksst {
  s_scope : option nat;
  s_scopes : list scope;
  s_syms : list symbol;
  s_main : nat;
  s_cur : nat;
  s_last : option nat;
  s_depth : N;
  s_msgs : list smsg }.

(** The world around the checks: BUILD_DATA.werror and BUILD_DATA.quiet
    (skull/build_data.h), iscntrl above 255 (skull/semantic/types.c:100), whether strtod
    sets ERANGE (types.c:42), and whether the file of a module can be opened
    (skull/semantic/import.c:23-39). *)
Record world := mkworld {
  w_werror : bool;
  w_quiet : bool;
  w_wide : N -> res bool;
  w_range : fval -> bool;
  w_module : text -> bool }.

(** Outcome: true with a state and what was stored in the tree, false, or undefined
    behaviour. *)
Inductive sres (A : Type) : Type :=
| Pass : sst -> A -> sres A
| Stop : list smsg -> sres A
| Crash : sres A.
Arguments Pass {A} _ _.
Arguments Stop {A} _.
Arguments Crash {A}.

(** `&&` and `if (!...) return false;` in the C code, and code without an own result. *)
Definition sbind {A B} (r : sres A) (f : sst -> A -> sres B) : sres B :=
  match r with Pass s a => f s a | Stop m => Stop m | Crash => Crash end.
Definition rbind {A B} (r : res A) (f : A -> sres B) : sres B :=
  match r with Ok a => f a | UB => Crash end.

Notation "'let+' ( s , x ) := r 'in' k" := (sbind r (fun s x => k))
  (at level 200, s name, x pattern, r at level 100, k at level 200).
Notation "'get' x := r 'in' k" := (rbind r (fun x => k))
  (at level 200, x pattern, r at level 100, k at level 200).

(** Assignments to single fields, all over skull/semantic. *)
Definition set_scope (s : sst) (c : option nat) : sst :=
  mksst c (s_scopes s) (s_syms s) (s_main s) (s_cur s) (s_last s) (s_depth s) (s_msgs s).
Definition set_scopes (s : sst) (l : list scope) : sst :=
  mksst (s_scope s) l (s_syms s) (s_main s) (s_cur s) (s_last s) (s_depth s) (s_msgs s).
Definition set_syms (s : sst) (l : list symbol) : sst :=
  mksst (s_scope s) (s_scopes s) l (s_main s) (s_cur s) (s_last s) (s_depth s) (s_msgs s).
Definition set_funcs (s : sst) (cur : nat) (last : option nat) : sst :=
  mksst (s_scope s) (s_scopes s) (s_syms s) (s_main s) cur last (s_depth s) (s_msgs s).
Definition set_depth (s : sst) (d : N) : sst :=
  mksst (s_scope s) (s_scopes s) (s_syms s) (s_main s) (s_cur s) (s_last s) d (s_msgs s).
Definition set_msgs (s : sst) (m : list smsg) : sst :=
  mksst (s_scope s) (s_scopes s) (s_syms s) (s_main s) (s_cur s) (s_last s) (s_depth s) m.

(** FMT_ERROR, skull/common/errors.h:121-122, and FMT_ERROR with `return false`. *)
Definition say (c : scode) (l : option location) (s : sst) : sst :=
  set_msgs s (mksmsg c l :: s_msgs s).
Definition reject {A} (c : scode) (l : option location) (s : sst) : sres A :=
  Stop (mksmsg c l :: s_msgs s).

(** FMT_WARN with `return !err`, skull/common/errors.h:116-119. *)
Definition warn (w : world) (c : scode) (l : option location) (s : sst) : sres unit :=
  if w_werror w then reject c l s else Pass (say c l s) tt.

(** Following a pointer. *)
Definition deref {A} (l : list A) (i : nat) : res A :=
  match nth_error l i with Some x => Ok x | None => UB end.
(** Storing through a pointer. *)
Fixpoint upd {A} (l : list A) (i : nat) (f : A -> A) : list A :=
  match l, i with
  | [], _ => []
  | x :: r, O => f x :: r
  | x :: r, S i => x :: upd r i f
  end.
(** `token->location`, null excluded; e.g. skull/semantic/types.c:268. *)
Definition loc_of (ts : list token) : res location :=
  match ts with [] => UB | t :: _ => Ok (t_loc t) end.

(** strchr(name, '.'), skull/semantic/scope.c:46: what stands before and behind. *)
Fixpoint split_dot (name : text) : option (text * text) :=
  match name with
  | [] => None
  | c :: r =>
      if c =? chr "." then Some ([], r)
      else match split_dot r with Some (a, b) => Some (c :: a, b) | None => None end
  end.

(** ht_get, skull/common/hashtable.c:26-42, on the list. *)
Fixpoint assoc (l : list (text * nat)) (name : text) : option nat :=
  match l with
  | [] => None
  | (k, v) :: r => if text_eqb k name then Some v else assoc r name
  end.

(** scope_find_name, skull/semantic/scope.c:40-71. Calls that nest deeper than there are
    scopes and characters (a circular list of scopes) count as undefined behaviour. *)
Fixpoint find_name (fuel : nat) (scs : list scope) (ys : list symbol) (sc : option nat)
    (name : text) : res (option nat) :=
  match fuel with
  | O => UB
  | S f =>
      match sc with
      | None => Ok None
      | Some i =>
          do c <- deref scs i;
          let up :=
            match c_parent c with
            | Some p => find_name f scs ys (Some p) name
            | None => match c_last c with
                      | Some p => find_name f scs ys (Some p) name
                      | None => Ok None
                      end
            end in
          match c_syms c with
          | None => up
          | Some tab =>
              match split_dot name with
              | Some (a, b) =>
                  do k <- find_name f scs ys (Some i) a;
                  match k with
                  | None => Ok None
                  | Some k =>
                      do y <- deref ys k;
                      match y_kind y with
                      | KSpace sc => find_name f scs ys sc b
                      | _ => Ok None
                      end
                  end
              | None =>
                  match assoc tab name with
                  | Some k => Ok (Some k)
                  | None => up
                  end
              end
          end
      end
  end.

(** scope_find_name(state->scope, name), as called at skull/semantic/scope.c:26, 89,
    symbol.c:45, func.c:219, types.c:180. *)
Definition scope_find_name (s : sst) (name : text) : res (option nat) :=
  find_name (S (List.length name) * (2 + List.length (s_scopes s)))%nat (s_scopes s) (s_syms s) (s_scope s) name.

(** make_scope, skull/semantic/scope.c:76-78. *)
Definition empty_scope : scope := mkscope None None None None None.
Definition make_scope (s : sst) : sst * nat :=
  (set_scopes s (s_scopes s ++ [empty_scope]), List.length (s_scopes s)).

(** Stores into one scope. *)
Definition put_child (p : nat) (c : scope) : scope := mkscope (c_syms c) (c_next c) (c_last c) (Some p) (c_parent c).
Definition put_parent (p : nat) (c : scope) : scope := mkscope (c_syms c) (c_next c) (c_last c) (c_child c) (Some p).
Definition put_next (p : nat) (c : scope) : scope := mkscope (c_syms c) (Some p) (c_last c) (c_child c) (c_parent c).
Definition put_last (p : nat) (c : scope) : scope := mkscope (c_syms c) (c_next c) (Some p) (c_child c) (c_parent c).
Definition put_syms (t : list (text * nat)) (c : scope) : scope := mkscope (Some t) (c_next c) (c_last c) (c_child c) (c_parent c).

(** make_child_scope, skull/semantic/scope.c:109-120. *)
Definition make_child_scope (s : sst) : res sst :=
  let '(s, i) := match s_scope s with Some i => (s, i) | None => make_scope s end in
  do c <- deref (s_scopes s) i;
  let '(s, j) := match c_child c with Some j => (s, j) | None => make_scope s end in
  let l := upd (upd (s_scopes s) i (put_child j)) j (put_parent i) in
  Ok (set_scope (set_scopes s l) (Some j)).

(** make_adjacent_scope, skull/semantic/scope.c:128-136. *)
Definition make_adjacent_scope (s : sst) : res sst :=
  match s_scope s with
  | None => UB
  | Some i =>
      let '(s, j) := make_scope s in
      let l := upd (upd (s_scopes s) j (put_last i)) i (put_next j) in
      Ok (set_scope (set_scopes s l) (Some j))
  end.

(** The loop of find_scope_head, skull/semantic/scope.c:147-149, and of
    get_last_adjacent_scope, 217-219. A circular list is undefined behaviour here. *)
Fixpoint chase (link : scope -> option nat) (fuel : nat) (scs : list scope) (i : nat) : res nat :=
  match fuel with
  | O => UB
  | S f =>
      do c <- deref scs i;
      match link c with
      | Some j => chase link f scs j
      | None => Ok i
      end
  end.

(** find_scope_head, skull/semantic/scope.c:141-152. *)
Definition find_scope_head (s : sst) : res (option nat) :=
  match s_scope s with
  | None => Ok None
  | Some i => do h <- chase c_last (S (List.length (s_scopes s))) (s_scopes s) i; Ok (Some h)
  end.

(** is_top_lvl_scope, skull/semantic/scope.c:154-158. *)
Definition is_top_lvl_scope (s : sst) : res bool :=
  do h <- find_scope_head s;
  match h with
  | None => Ok true
  | Some h => do c <- deref (s_scopes s) h;
              Ok (match c_parent c with None => true | Some _ => false end)
  end.

(** reset_scope_head, skull/semantic/scope.c:163-167. *)
Definition reset_scope_head (s : sst) : res sst :=
  do h <- find_scope_head s; Ok (set_scope s h).

(** restore_parent_scope, skull/semantic/scope.c:172-177. *)
Definition restore_parent_scope (s : sst) : res sst :=
  do s <- reset_scope_head s;
  match s_scope s with
  | None => Ok s
  | Some i => do c <- deref (s_scopes s) i; Ok (set_scope s (c_parent c))
  end.

(** get_last_adjacent_scope, skull/semantic/scope.c:216-222. *)
Definition get_last_adjacent_scope (s : sst) (i : option nat) : res (option nat) :=
  match i with
  | None => Ok None
  | Some i => do j <- chase c_next (S (List.length (s_scopes s))) (s_scopes s) i; Ok (Some j)
  end.

(** find_builtin_type, skull/semantic/types.c:187-197, and TYPES_BUILTIN, 227-235. *)
Definition types_builtin : list (text * ty) :=
  [(u "Bool", TBool); (u "Int", TInt); (u "Float", TFloat); (u "Rune", TRune);
   (u "Str", TStr); (u "Void", TVoid)].
Fixpoint find_builtin_in (l : list (text * ty)) (name : text) : option ty :=
  match l with
  | [] => None
  | (k, t) :: r => if text_eqb name k then Some t else find_builtin_in r name
  end.
Definition find_builtin_type (name : text) : option ty := find_builtin_in types_builtin name.

(** find_type, skull/semantic/types.c:176-185. *)
Definition find_type (s : sst) (name : text) : res (option ty) :=
  do k <- scope_find_name s name;
  match k with
  | None => Ok (find_builtin_type name)
  | Some k =>
      do y <- deref (s_syms s) k;
      match y_kind y with
      | KAlias t => Ok t
      | _ => Ok (find_builtin_type name)
      end
  end.

(** token_to_type, skull/semantic/types.c:303-317. *)
Fixpoint token_to_type (src : text) (s : sst) (ts : list token) : res (option ty) :=
  match ts with
  | [] => UB
  | t :: r =>
      if is_identifier_like t then do n <- token_to_mbs_str src t; find_type s n
      else if ttype_eqb (t_type t) T_OPER_REF
      then do x <- token_to_type src s r; Ok (option_map TRef x)
      else Ok None
  end.

(** find_func_by_name, skull/semantic/func.c:218-223. *)
Definition find_func_by_name (s : sst) (name : text) : res (option (nat * func)) :=
  do k <- scope_find_name s name;
  match k with
  | None => Ok None
  | Some k =>
      do y <- deref (s_syms s) k;
      match y_kind y with
      | KFunc f => Ok (Some (k, f))
      | _ => Ok None
      end
  end.

(** `type` of a symbol, skull/semantic/symbol.h:20, and `!=` on it, symbol.c:23. *)
Definition symtype_of (k : kind) : symtype :=
  match k with KVar _ => Y_VAR | KFunc _ => Y_FUNC | KAlias _ => Y_ALIAS | KSpace _ => Y_SPACE end.
Definition symtype_eqb (a b : symtype) : bool :=
  match a, b with
  | Y_VAR, Y_VAR | Y_FUNC, Y_FUNC | Y_ALIAS, Y_ALIAS | Y_SPACE, Y_SPACE => true
  | _, _ => false
  end.

(** find_symbol_type, skull/semantic/symbol.c:44-57; None is SYMBOL_UNKNOWN. *)
Definition find_symbol_type (s : sst) (name : text) : res (option symtype) :=
  do k <- scope_find_name s name;
  do first <- match k with
              | None => Ok None
              | Some k => do y <- deref (s_syms s) k;
                          Ok (match y_kind y with
                              | KVar _ => Some Y_VAR
                              | KSpace _ => Some Y_SPACE
                              | _ => None
                              end)
              end;
  match first with
  | Some t => Ok (Some t)
  | None =>
      do f <- find_func_by_name s name;
      match f with
      | Some _ => Ok (Some Y_FUNC)
      | None =>
          do t <- find_type s name;
          Ok (match t with Some _ => Some Y_ALIAS | None => None end)
      end
  end.

(** The messages of symbol_already_exists, skull/semantic/symbol.c:23-39. The name is
    handed over to the message and freed with it; the callers do not use it again,
    except for validate_func_params. *)
Definition redefinition (old new : symtype) (name : text) : option scode :=
  if symtype_eqb old new then
    match old with
    | Y_VAR => Some (S_VAR_ALREADY_DEFINED name)
    | Y_ALIAS => Some (S_ALIAS_ALREADY_DEFINED name)
    | Y_FUNC => Some (S_NO_REDEFINE_FUNC name)
    | Y_SPACE => None
    end
  else Some (S_NO_REDEFINE_X_AS_Y old name new).

(** scope_add_symbol, skull/semantic/symbol.c:59-69 with symbol_already_exists, 16-42.
    None if it returned false. *)
Definition scope_add_symbol (s : sst) (y : symbol) : sres (option nat) :=
  get old := find_symbol_type s (y_name y) in
  match old with
  | Some t =>
      match redefinition t (symtype_of (y_kind y)) (y_name y) with
      | Some c => Pass (say c (Some (y_loc y)) s) None
      | None => Pass s None
      end
  | None =>
      let '(s, i) := match s_scope s with Some i => (s, i) | None => make_scope s end in
      get c := deref (s_scopes s) i in
      let tab := match c_syms c with Some t => t | None => [] end in
      match assoc tab (y_name y) with
      | Some _ => Pass (set_scope s (Some i)) None
      | None =>
          let k := List.length (s_syms s) in
          let s := set_scopes s (upd (s_scopes s) i (put_syms ((y_name y, k) :: tab))) in
          Pass (set_scope (set_syms s (s_syms s ++ [y])) (Some i)) (Some k)
      end
  end.

(** scope_add_symbol where false makes the caller return false at once. *)
Definition add_or_stop (s : sst) (y : symbol) : sres nat :=
  let+ (s, k) := scope_add_symbol s y in
  match k with Some k => Pass s k | None => Stop (s_msgs s) end.

(** Stores into a symbol. *)
Definition put_kind (k : kind) (y : symbol) : symbol := mksym (y_name y) (y_loc y) k.
Definition set_kind (s : sst) (i : nat) (k : kind) : sst := set_syms s (upd (s_syms s) i (put_kind k)).
Definition mark_read (v : var) : var :=
  mkvar (v_type v) (v_const v) (v_reassigned v) true (v_implicit v) (v_exported v) (v_defined v) (v_cexpr v).
Definition mark_reassigned (v : var) : var :=
  mkvar (v_type v) (v_const v) true (v_read v) (v_implicit v) (v_exported v) (v_defined v) (v_cexpr v).
Definition mark_defined (c : bool) (v : var) : var :=
  mkvar (v_type v) (v_const v) (v_reassigned v) (v_read v) (v_implicit v) (v_exported v) true (Some c).
Definition mark_called (f : func) : func :=
  mkfunc (f_external f) (f_export f) (f_ret f) (f_num f) (f_params f) true.
Definition put_params (l : list ty) (f : func) : func :=
  mkfunc (f_external f) (f_export f) (f_ret f) (f_num f) l (f_called f).

(** scope_find_var, skull/semantic/scope.c:87-104. `symbol->var` is read whatever the
    symbol is: null for an alias and for a namespace whose block is open, a pointer to
    something else for a function and for a closed namespace. *)
Definition scope_find_var (src : text) (s : sst) (t : token) : sres (nat * var) :=
  get n := token_to_mbs_str src t in
  get k := scope_find_name s n in
  match k with
  | None => reject (S_VAR_NOT_FOUND n) (Some (t_loc t)) s
  | Some k =>
      get y := deref (s_syms s) k in
      match y_kind y with
      | KVar v => if v_defined v then Pass s (k, v) else reject (S_VAR_NOT_FOUND n) (Some (t_loc t)) s
      | KAlias _ | KSpace None => reject (S_VAR_NOT_FOUND n) (Some (t_loc t)) s
      | KFunc _ | KSpace (Some _) => Crash
      end
  end.

(** `value` of AstNodeExpr, skull/parse/ast_node.h:162-187. *)
Inductive value := VInt (z : Z) | VFloat (f : fval) | VBool (b : bool) | VRune (c : N) | VStr (s : text).

(** AstNodeExpr after validate_expr: symbol, value, type and `is_const_expr`. Arguments
    behind the last parameter are left out. *)
Inductive texpr :=
| XVar (t : token) (sym : nat) (ty : ty) (c : bool)
| XConst (t : token) (v : value) (ty : ty)
| XCall (name : token) (sym : nat) (args : list texpr) (ty : ty)
| XUn (o : unop) (r : texpr) (ty : ty) (c : bool)
| XBin (o : binop) (l r : texpr) (ty : ty) (c : bool).

(** `expr->type` and `expr->is_const_expr`. *)
Definition x_ty (x : texpr) : ty :=
  match x with XVar _ _ t _ | XConst _ _ t | XCall _ _ _ t | XUn _ _ t _ | XBin _ _ _ t _ => t end.
Definition x_cexpr (x : texpr) : bool :=
  match x with XVar _ _ _ c | XUn _ _ _ c | XBin _ _ _ _ c => c | XConst _ _ _ => true | XCall _ _ _ _ => false end.

(** find_expr_node_token, skull/parse/ast_node.c:1163-1177. *)
Fixpoint x_token (x : texpr) : token :=
  match x with
  | XVar t _ _ _ | XConst t _ _ | XCall t _ _ _ => t
  | XUn _ r _ _ => x_token r
  | XBin _ l _ _ _ => x_token l
  end.
Definition x_loc (x : texpr) : option location := Some (t_loc (x_token x)).

(** validate_ident_expr, skull/semantic/expr.c:56-69. *)
Definition validate_ident_expr (src : text) (s : sst) (t : token) : sres texpr :=
  let+ (s, (k, v)) := scope_find_var src s t in
  Pass (set_kind s k (KVar (mark_read v)))
    (XVar t k (v_type v) (match v_cexpr v with Some c => c | None => false end)).

(** A literal that was evaluated, or its message. *)
Definition literal {A} (s : sst) (t : token) (r : lit A) (k : A -> sres texpr) : sres texpr :=
  match r with
  | Val a => k a
  | Model_Literal.Bad e => reject (S_LITERAL t e) (Some (t_loc t)) s
  end.

(** validate_const_expr, skull/semantic/expr.c:154-197. *)
Definition validate_const_expr (w : world) (src : text) (s : sst) (t : token) : sres texpr :=
  match t_type t with
  | T_INT_CONST =>
      get r := eval_integer src t in literal s t r (fun z => Pass s (XConst t (VInt z) TInt))
  | T_FLOAT_CONST =>
      get f := eval_float src t in
      if w_range w f then reject (S_LITERAL t ERR_OVERFLOW) (Some (t_loc t)) s
      else Pass s (XConst t (VFloat f) TFloat)
  | T_BOOL_CONST => Pass s (XConst t (VBool (eval_bool t)) TBool)
  | T_RUNE_CONST =>
      get r := eval_rune (w_wide w) src t in literal s t r (fun c => Pass s (XConst t (VRune c) TRune))
  | T_STR_CONST =>
      match const_str src t with
      | None | Some UB => Crash
      | Some (Ok r) => literal s t r (fun b => Pass s (XConst t (VStr b) TStr))
      end
  | _ => Stop (s_msgs s)
  end.

(** is_numeric, skull/semantic/expr.c:209-220, for an expression whose first token is at
    loc and whose right side has type t. *)
Definition numeric (t : ty) : bool := ty_eqb t TInt || ty_eqb t TFloat.
Definition is_numeric (loc : option location) (t : ty) (s : sst) : sres unit :=
  if numeric t then Pass s tt else reject S_NOT_NUMERIC loc s.

(** is_div_by_zero, skull/semantic/expr.c:222-239: passes if false. *)
Definition is_div_by_zero (src : text) (r : texpr) (s : sst) : sres unit :=
  match r with
  | XConst t _ _ =>
      if ttype_eqb (t_type t) T_INT_CONST then
        get v := eval_integer src t in
        match v with
        | Val z => if (z =? 0)%Z then reject S_DIV_BY_ZERO (Some (t_loc t)) s else Pass s tt
        | Model_Literal.Bad _ => Pass s tt
        end
      else Pass s tt
  | _ => Pass s tt
  end.

(** validate_bool_expr, skull/semantic/expr.c:253-266. *)
Definition validate_bool_operand (loc : option location) (t : ty) (s : sst) : sres unit :=
  if ty_eqb t TBool then Pass s tt else reject (S_EXPECTED_SAME_TYPE TBool t) loc s.

(** expr->oper == EXPR_IDENTIFIER, skull/semantic/expr.c:269, 281. *)
Definition is_ident (x : texpr) : bool := match x with XVar _ _ _ _ => true | _ => false end.

(** validate_expr_restrictions, skull/semantic/expr.c:90-122, and set_expr_type, 124-143,
    for the unary operators; with validate_ref_expr, 268-278, and validate_deref_expr,
    280-288. *)
Definition validate_unary (o : unop) (r : texpr) (s : sst) : sres ty :=
  let loc := x_loc r in
  match o with
  | UNeg => let+ (s, _) := is_numeric loc (x_ty r) s in Pass s (x_ty r)
  | UNot => let+ (s, _) := validate_bool_operand loc (x_ty r) s in Pass s TBool
  | URef => if is_ident r then Pass s (TRef (x_ty r)) else reject S_REF_IDENT_ONLY loc s
  | UDeref =>
      match is_ident r, x_ty r with
      | true, TRef t => Pass s t
      | _, _ => reject S_CANNOT_DEREF loc s
      end
  end.

(** validate_expr_restrictions, skull/semantic/expr.c:90-122, and set_expr_type, 124-143,
    for the binary operators; with validate_shift_expr, 199-207, and validate_pow_expr,
    241-251. *)
Definition validate_binary (src : text) (o : binop) (l r : texpr) (s : sst) : sres ty :=
  let loc := x_loc l in
  let t := x_ty r in
  match o with
  | BAdd | BSub | BMult => let+ (s, _) := is_numeric loc t s in Pass s t
  | BLess | BGtr | BLessEq | BGtrEq => let+ (s, _) := is_numeric loc t s in Pass s TBool
  | BDiv | BMod =>
      let+ (s, _) := is_div_by_zero src r s in
      let+ (s, _) := is_numeric loc t s in Pass s t
  | BPow =>
      if numeric t then let+ (s, _) := is_numeric loc t s in Pass s t
      else reject (S_POW_BAD_TYPE t) None s
  | BLshift | BRshift => if ty_eqb t TInt then Pass s t else reject S_NOT_INT loc s
  | BAnd | BOr | BXor => let+ (s, _) := validate_bool_operand loc t s in Pass s TBool
  | BIs | BIsnt => Pass s TBool
  end.

(** find_func_by_token, skull/semantic/expr.c:334-344. *)
Definition find_func_by_token (src : text) (s : sst) (t : token) : sres (nat * func) :=
  get n := token_to_mbs_str src t in
  get f := find_func_by_name s n in
  match f with
  | Some kf => Pass s kf
  | None => reject (S_MISSING_DECLARATION t) (Some (t_loc t)) s
  end.

(** validate_stmt_func_call up to its last test, skull/semantic/expr.c:298-327. *)
Definition call_head (src : text) (s : sst) (name : token) (args : list (list token * expr)) (n : N)
    : sres (nat * func) :=
  let+ (s, (k, f)) := find_func_by_token src s name in
  let s := set_kind s k (KFunc (mark_called f)) in
  if negb (f_num f =? n) then reject S_INVALID_NUM_PARAMS (Some (t_loc name)) s
  else
    match args with
    | (t :: _, _) :: _ =>
        if f_num f =? 0 then reject S_ZERO_PARAM_FUNC (Some (t_loc t)) s else Pass s (k, f)
    | _ => Pass s (k, f)
    end.

(** The loop of validate_func_call_params, skull/semantic/expr.c:353-369, over the types
    of the parameters. *)
Definition check_args (ve : sst -> expr -> sres texpr) :=
  fix go (s : sst) (args : list (list token * expr)) (tys : list ty) {struct args} : sres (list texpr) :=
    match tys, args with
    | [], _ => Pass s []
    | _ :: _, [] => Crash
    | t :: tys, (tk, a) :: args =>
        let+ (s, x) := ve s a in
        if ty_eqb (x_ty x) t then
          let+ (s, xs) := go s args tys in Pass s (x :: xs)
        else get l := loc_of tk in reject (S_FUNC_TYPE_MISMATCH t (x_ty x)) (Some l) s
    end.

(** validate_expr, skull/semantic/expr.c:36-54, with validate_binary_expr, 71-88,
    set_const_expr, 145-152, and validate_stmt_func_call, 298-332. *)
Fixpoint validate_expr (w : world) (src : text) (s : sst) (e : expr) {struct e} : sres texpr :=
  match e with
  | ECall name args n =>
      let+ (s, (k, f)) := call_head src s name args n in
      let+ (s, xs) := check_args (validate_expr w src) s args (if f_num f =? 0 then [] else f_params f) in
      Pass s (XCall name k xs (f_ret f))
  | EVar t => validate_ident_expr src s t
  | EConst t => validate_const_expr w src s t
  | EUn o None => Crash
  | EUn o (Some r) =>
      let+ (s, r) := validate_expr w src s r in
      let+ (s, t) := validate_unary o r s in
      Pass s (XUn o r t (x_cexpr r))
  | EBin o l r =>
      let+ (s, r) := validate_expr w src s r in
      match l with
      | None => Crash
      | Some l =>
          let+ (s, l) := validate_expr w src s l in
          if ty_eqb (x_ty l) (x_ty r) then
            let+ (s, t) := validate_binary src o l r s in
            Pass s (XBin o l r t (x_cexpr l && x_cexpr r))
          else reject (S_EXPECTED_SAME_TYPE (x_ty l) (x_ty r)) (x_loc r) s
      end
  end.

(** The union of AstNode after the checks. XAlias is a definition whose symbol stays null.
    XProto has the symbols of the parameters. *)
Inductive tpay :=
| XNone
| XAlias
| XDef (sym : nat) (e : texpr)
| XSet (sym : nat) (e : texpr)
| XProto (sym : nat) (params : list nat)
| XExpr (e : texpr)
| XSpace (sym : nat).
Inductive tnode := mktnode {
  tn_type : ntype;
  tn_token : list token;
  tn_pay : tpay;
  tn_child : list tnode }.

(** validate_stmt_type_alias, skull/semantic/types.c:264-297. *)
Definition validate_stmt_type_alias (src : text) (s : sst) (tok : list token) (e : expr) (is_const : bool)
    : sres tpay :=
  if negb is_const then
    get l := loc_of (tl tok) in reject S_NO_MUT_TYPE_ALIAS (Some l) s
  else
    let type_expr := match e with EVar _ | EUn URef _ => true | _ => false end in
    if negb type_expr then
      get l := loc_of (tl (tl tok)) in reject S_NO_TYPE_EXPR (Some l) s
    else
      match tok with
      | t :: _ :: r =>
          get ty := token_to_type src s r in
          get n := token_to_mbs_str src t in
          let+ (s, _) := add_or_stop s (mksym n (t_loc t) (KAlias ty)) in
          Pass s XAlias
      | _ => Crash
      end.

(** make_variable, skull/semantic/variable.c:18-36: null for a bad name, which the callers
    follow at once (skull/semantic/assign.c:106, func.c:164). *)
Definition make_variable (src : text) (t : token) (ty : ty) (is_const implicit exported defined : bool)
    : res (text * var) :=
  do n <- token_to_string src t;
  if is_valid_identifier_str n then
    match c32stombs n with
    | Some b => Ok (b, mkvar ty is_const false false implicit exported defined None)
    | None => UB
    end
  else UB.

(** is_void_func_assign, skull/semantic/assign.c:134-150: passes if false. *)
Definition is_void_func_assign (def : list token) (x : texpr) (s : sst) : sres unit :=
  match x with
  | XCall name _ _ TVoid => reject (S_NO_VOID_ASSIGN def) (Some (t_loc name)) s
  | _ => Pass s tt
  end.

(** is_expr_compatible_with_var, skull/semantic/assign.c:152-168. *)
Definition is_expr_compatible_with_var (x : texpr) (v : var) (s : sst) : sres unit :=
  if ty_eqb (x_ty x) (v_type v) then Pass s tt
  else reject (S_EXPECTED_SAME_TYPE (v_type v) (x_ty x)) (x_loc x) s.

(** The type in node_to_var, skull/semantic/assign.c:84-96. *)
Definition declared_type (src : text) (s : sst) (name : list token) (x : texpr) (implicit : bool) : sres ty :=
  if implicit then Pass s (x_ty x)
  else
    get t := token_to_type src s (tl name) in
    match t with
    | Some t => Pass s t
    | None => get l := loc_of (tl name) in reject (S_TYPE_NOT_FOUND (tl name)) (Some l) s
    end.

(** node_to_var, skull/semantic/assign.c:82-132. *)
Definition node_to_var (src : text) (s : sst) (name : list token) (x : texpr)
    (implicit is_const exported : bool) : sres (nat * var) :=
  let+ (s, _) := is_void_func_assign name x s in
  let+ (s, t) := declared_type src s name x implicit in
  match name with
  | [] => Crash
  | nt :: _ =>
      get (n, v) := make_variable src nt t is_const implicit exported false in
      let+ (s, k) := add_or_stop s (mksym n (t_loc nt) (KVar v)) in
      Pass s (k, v)
  end.

(** expr->oper == EXPR_CONST, skull/semantic/assign.c:44 and flow.c:224. *)
Definition is_const_lit (x : texpr) : bool := match x with XConst _ _ _ => true | _ => false end.

(** validate_stmt_var_def, skull/semantic/assign.c:24-51. *)
Definition validate_stmt_var_def (w : world) (src : text) (s : sst) (tok te name : list token) (e : expr)
    (implicit is_const exported : bool) : sres tpay :=
  match te with
  | [] => Crash
  | _ :: rest =>
      get ty := token_to_type src s rest in
      match ty with
      | Some _ => validate_stmt_type_alias src s tok e is_const
      | None =>
          let+ (s, x) := validate_expr w src s e in
          let+ (s, (k, v)) := node_to_var src s name x implicit is_const exported in
          let v := mark_defined (x_cexpr x) v in
          let s := set_kind s k (KVar v) in
          let+ (s, _) := is_expr_compatible_with_var x v s in
          if is_const_lit x && negb implicit then
            let+ (s, _) := warn w (S_WARN_TRIVIAL_TYPE (v_type v)) None s in Pass s (XDef k x)
          else Pass s (XDef k x)
      end
  end.

(** is_redundant_reassign, skull/semantic/assign.c:170-180: passes if false. *)
Definition is_redundant_reassign (k : nat) (x : texpr) (s : sst) : sres unit :=
  match x with
  | XVar t k' _ _ => if (k =? k')%nat then reject (S_REDUNDANT_REASSIGN t) (Some (t_loc t)) s else Pass s tt
  | _ => Pass s tt
  end.

(** validate_stmt_var_assign, skull/semantic/assign.c:53-75. *)
Definition validate_stmt_var_assign (w : world) (src : text) (s : sst) (tok : list token) (e : expr)
    : sres tpay :=
  match tok with
  | [] => Crash
  | t :: _ =>
      let+ (s, (k, v)) := scope_find_var src s t in
      if v_const v then reject (S_REASSIGN_CONST t) (Some (t_loc t)) s
      else
        let s := set_kind s k (KVar (mark_reassigned v)) in
        let+ (s, x) := validate_expr w src s e in
        let+ (s, _) := is_expr_compatible_with_var x v s in
        let+ (s, _) := is_redundant_reassign k x s in
        Pass s (XSet k x)
  end.

(** validate_expr_func, skull/semantic/expr.c:290-296. *)
Definition validate_expr_func (w : world) (src : text) (s : sst) (tok : list token) (e : expr) : sres tpay :=
  match e with
  | ECall _ _ _ => let+ (s, x) := validate_expr w src s e in Pass s (XExpr x)
  | _ => get l := loc_of tok in reject S_NO_DANGLING_EXPR (Some l) s
  end.

(** assert_sane_child, skull/semantic/flow.c:240-262. *)
Definition may_have_child (n : node) : bool :=
  match n_type n, n_pay n with
  | (N_IF | N_ELIF | N_ELSE | N_WHILE | N_FUNCTION_PROTO | N_NAMESPACE), _ => true
  | N_EXPR, PExpr (ECall _ _ _) => true
  | _, _ => false
  end.
Definition assert_sane_child (n : node) (s : sst) : sres unit :=
  match n_child n with
  | [] => Pass s tt
  | c :: _ =>
      if may_have_child n then Pass s tt
      else get l := loc_of (n_token c) in reject S_UNEXPECTED_CODE_BLOCK (Some l) s
  end.

(** no_dead_code_below, skull/semantic/flow.c:74-94. *)
Fixpoint no_dead_code_below (l : list node) (s : sst) : sres unit :=
  match l with
  | [] => Pass s tt
  | n :: r =>
      match n_type n with
      | N_COMMENT | N_UNREACHABLE | N_NOOP => no_dead_code_below r s
      | _ => get l := loc_of (n_token n) in reject S_UNREACHABLE_CODE (Some l) s
      end
  end.

(** `symbol->func` of the current function, e.g. skull/semantic/flow.c:28. *)
Definition current_func (s : sst) : res (symbol * func) :=
  do y <- deref (s_syms s) (s_cur s);
  match y_kind y with KFunc f => Ok (y, f) | _ => UB end.

(** is_valid_return_expr, skull/semantic/flow.c:43-68. *)
Definition is_valid_return_expr (x : texpr) (s : sst) : sres unit :=
  if (s_cur s =? s_main s)%nat && negb (ty_eqb (x_ty x) TInt) then 
    reject (S_NON_INT_MAIN (x_token x)) (x_loc x) s
  else
    get (_, f) := current_func s in
    if negb (ty_eqb (f_ret f) TVoid) && negb (ty_eqb (x_ty x) (f_ret f))
    then reject (S_EXPECTED_SAME_TYPE (f_ret f) (x_ty x)) (x_loc x) s
    else Pass s tt.

(** validate_stmt_return, skull/semantic/flow.c:23-41; `after` are the nodes behind. *)
Definition validate_stmt_return (w : world) (src : text) (s : sst) (tok : list token) (e : option expr)
    (after : list node) : sres tpay :=
  let+ (s, _) := match after with [] => Pass s tt | n :: _ => assert_sane_child n s end in
  match e with
  | None =>
      get (_, f) := current_func s in
      if negb (ty_eqb (f_ret f) TVoid) then
        get l := loc_of tok in reject S_RETURN_MISSING_EXPR (Some l) s
      else let+ (s, _) := no_dead_code_below after s in Pass s XNone
  | Some e =>
      let+ (s, x) := validate_expr w src s e in
      let+ (s, _) := is_valid_return_expr x s in
      let+ (s, _) := no_dead_code_below after s in
      Pass s (XExpr x)
  end.

(** is_missing_block, skull/semantic/flow.c:179-188: passes if false. *)
Definition is_missing_block (word : text) (tok : list token) (child : list node) (s : sst) : sres unit :=
  match child with
  | _ :: _ => Pass s tt
  | [] => get l := loc_of tok in reject (S_MISSING_BLOCK word) (Some l) s
  end.

(** validate_control_not_missing_if, skull/semantic/flow.c:190-213, on the types of the
    nodes before (nearest first): whether an if or elif is found behind comments. *)
Fixpoint has_if_before (before : list ntype) : bool :=
  match before with
  | N_COMMENT :: r => has_if_before r
  | (N_IF | N_ELIF) :: _ => true
  | _ => false
  end.
Definition validate_control_not_missing_if (before : list ntype) (tok : list token) (s : sst) : sres unit :=
  if has_if_before before then Pass s tt
  else get l := loc_of tok in reject S_ELSE_ELIF_MISSING_IF (Some l) s.

(** validate_bool_expr, skull/semantic/flow.c:215-233. *)
Definition validate_bool_expr (w : world) (x : texpr) (s : sst) : sres unit :=
  if negb (ty_eqb (x_ty x) TBool) then reject S_NON_BOOL_EXPR (x_loc x) s
  else
    match x with
    | XConst _ (VBool b) _ =>
        warn w (if b then S_WARN_COND_ALWAYS_TRUE else S_WARN_COND_ALWAYS_FALSE) (x_loc x) s
    | _ => Pass s tt
    end.

(** setup_and_validate_ast_sub_tree, skull/semantic/entry.c:46-58, and the end of
    validate_ast_sub_tree, 42; `sub` is its loop. *)
Definition setup_and_validate (sub : sst -> sres (list tnode)) (s : sst) : sres (list tnode) :=
  get s := make_child_scope s in
  let+ (s, c) := sub s in
  get s := reset_scope_head s in
  get s := restore_parent_scope s in
  get s := make_adjacent_scope s in
  Pass s c.

(** validate_control_if, skull/semantic/flow.c:104-111, and the common part of
    validate_control_elif, 113-121, and validate_control_while, 123-131. *)
Definition validate_condition (w : world) (src : text) (s : sst) (e : expr) : sres texpr :=
  let+ (s, x) := validate_expr w src s e in
  let+ (s, _) := validate_bool_expr w x s in
  Pass s x.

(** validate_control_while, skull/semantic/flow.c:123-137. *)
Definition validate_control_while (w : world) (src : text) (sub : sst -> sres (list tnode)) (s : sst)
    (tok : list token) (e : expr) (child : list node) : sres (texpr * list tnode) :=
  let s := set_depth s ((s_depth s + 1) mod 2 ^ 32) in
  let+ (s, _) := is_missing_block (u "while") tok child s in
  let+ (s, x) := validate_condition w src s e in
  let+ (s, c) := setup_and_validate sub s in
  Pass (set_depth s ((s_depth s + 2 ^ 32 - 1) mod 2 ^ 32)) (x, c).

(** validate_control_namespace, skull/semantic/flow.c:157-177. *)
Definition validate_control_namespace (src : text) (sub : sst -> sres (list tnode)) (s : sst)
    (tok : list token) : sres (nat * list tnode) :=
  match tok with
  | _ :: t :: _ =>
      get n := token_to_mbs_str src t in
      let+ (s, k) := add_or_stop s (mksym n (t_loc t) (KSpace None)) in
      let+ (s, c) := setup_and_validate sub s in
      match s_scope s with
      | None => Crash
      | Some i =>
          get here := deref (s_scopes s) i in
          match c_last here with
          | None => Crash
          | Some j =>
              get before := deref (s_scopes s) j in
              get inside := get_last_adjacent_scope s (c_child before) in
              Pass (set_kind s k (KSpace inside)) (k, c)
          end
      end
  | _ => Crash
  end.

(** validate_return_type, skull/semantic/func.c:200-213. *)
Definition validate_return_type (src : text) (s : sst) (ret : list token) : sres ty :=
  match ret with
  | [] => Pass s TVoid
  | t :: _ =>
      get r := token_to_type src s ret in
      match r with
      | Some r => Pass s r
      | None => reject (S_TYPE_NOT_FOUND ret) (Some (t_loc t)) s
      end
  end.

(** scope_add_var, skull/semantic/scope.c:23-32, as used in validate_func_params,
    skull/semantic/func.c:179-191: if the name is found the parameter is rejected; if
    scope_add_symbol gives a message the name is freed with it and then read again. *)
Definition scope_add_param (s : sst) (y : symbol) : sres nat :=
  get k := match s_scope s with
           | None => Ok None
           | Some _ => scope_find_name s (y_name y)
           end in
  match k with
  | Some _ => reject (S_SHADOW_VAR (y_name y)) (Some (y_loc y)) s
  | None =>
      get old := find_symbol_type s (y_name y) in
      match old with
      | Some _ => Crash
      | None =>
          let+ (s, k) := scope_add_symbol s y in
          match k with
          | Some k => Pass s k
          | None => reject (S_SHADOW_VAR (y_name y)) (Some (y_loc y)) s
          end
      end
  end.

(** The loop of validate_func_params, skull/semantic/func.c:148-194. *)
Fixpoint params_loop (src : text) (external : bool) (s : sst) (ps : list param)
    : sres (list (ty * nat)) :=
  match ps with
  | [] => Pass s []
  | p :: r =>
      get t := token_to_type src s (pm_type p) in
      match t with
      | None => get l := loc_of (pm_type p) in reject (S_TYPE_NOT_FOUND (pm_type p)) (Some l) s
      | Some t =>
          get (n, v) := make_variable src (pm_name p) t true false false true in
          let v := if external then mark_read (mark_reassigned v) else v in
          let+ (s, k) := scope_add_param s (mksym n (t_loc (pm_name p)) (KVar v)) in
          let+ (s, l) := params_loop src external s r in
          Pass s ((t, k) :: l)
      end
  end.

(** validate_func_params, skull/semantic/func.c:135-198. *)
Definition validate_func_params (src : text) (s : sst) (external : bool) (num : N) (ps : list param)
    : sres (list (ty * nat)) :=
  if num =? 0 then Pass s []
  else
    get s := make_child_scope s in
    let+ (s, l) := params_loop src external s (firstn (N.to_nat num) ps) in
    get s := restore_parent_scope s in
    Pass s l.

(** validate_stmt_func_decl_, skull/semantic/func.c:42-94. *)
Definition func_head (src : text) (s : sst) (name : token) (ret : list token) (num : N)
    (external export : bool) (ps : list param) : sres (nat * list nat) :=
  get top := is_top_lvl_scope s in
  if (export || external) && negb top then reject (S_NO_NESTED name) (Some (t_loc name)) s
  else
    let+ (s, r) := validate_return_type src s ret in
    get n := token_to_mbs_str src name in
    let f := mkfunc external export r num [] false in
    let old := s_cur s in
    let+ (s, k) := add_or_stop s (mksym n (t_loc name) (KFunc f)) in
    let s := set_funcs s k (Some old) in
    let+ (s, l) := validate_func_params src s external num ps in
    Pass (set_kind s k (KFunc (put_params (map fst l) f))) (k, map snd l).

(** post_validate_stmt_func_decl, skull/semantic/func.c:96-133. *)
Fixpoint terminal_node (l : list node) : option node :=
  match l with
  | [] => None
  | n :: r => match n_type n with N_RETURN | N_UNREACHABLE => Some n | _ => terminal_node r end
  end.
Definition returned_value (child : list node) : bool :=
  match terminal_node child with
  | Some n => match n_type n, n_pay n with N_RETURN, PExpr _ => true | _, _ => false end
  | None => false
  end.
Definition func_end (s : sst) (child : list node) : sres unit :=
  get (y, f) := current_func s in
  if f_external f then Pass s tt
  else if negb (returned_value child) && negb (ty_eqb (f_ret f) TVoid) then
    reject (S_EXPECTED_RETURN (y_name y)) None s
  else if returned_value child && ty_eqb (f_ret f) TVoid then
    reject (S_NO_VOID_RETURN (y_name y)) None s
  else
    match s_last s with
    | Some l => Pass (set_funcs s l (s_last s)) tt
    | None => Crash
    end.

(** validate_stmt_func_decl, skull/semantic/func.c:27-40. *)
Definition validate_stmt_func_decl (src : text) (sub : sst -> sres (list tnode)) (s : sst) (name : token)
    (ret : list token) (num : N) (external export : bool) (ps : list param) (child : list node)
    : sres (tpay * list tnode) :=
  let depth := s_depth s in
  let+ (s, (k, l)) := func_head src (set_depth s 0) name ret num external export ps in
  let+ (s, c) := setup_and_validate sub s in
  let+ (s, _) := func_end s child in
  Pass (set_depth s depth) (XProto k l, c).

(** validate_stmt_import, skull/semantic/import.c:18-47. *)
Definition validate_stmt_import (w : world) (src : text) (s : sst) (tok : list token) : sres unit :=
  match tok with
  | _ :: t :: _ =>
      get n := token_to_mbs_str src t in
      if w_module w n then Pass s tt else reject (S_LOAD_MODULE n) None s
  | _ => Crash
  end.

(** A block that no check looks at (behind a call, see validate_ast_node): all symbols
    stay null as the parser left them, skull/parse/ast_node.c:145-152 and 1005-1053. *)
Fixpoint untouched (n : node) : tnode :=
  match n with
  | mknode ty tok te pay child => mktnode ty tok XNone (map untouched child)
  end.

(** The switch of validate_ast_node, skull/semantic/entry.c:66-83, with
    validate_control_if, else, elif, break and continue (skull/semantic/flow.c:96-155).
    `before` are the types of the nodes before (nearest first), `after` the nodes behind,
    `sub` checks the nodes of the block. A payload that does not fit the node (never
    built by the parser) is undefined behaviour. *)
Definition validate_by_type (w : world) (src : text) (sub : sst -> sres (list tnode))
    (before : list ntype) (after : list node) (n : node) (s : sst) : sres (tpay * list tnode) :=
  let tok := n_token n in
  let child := n_child n in
  match n_type n, n_pay n with
  | N_RETURN, PExpr e =>
      let+ (s, p) := validate_stmt_return w src s tok (Some e) after in Pass s (p, [])
  | N_RETURN, PNone =>
      let+ (s, p) := validate_stmt_return w src s tok None after in Pass s (p, [])
  | N_UNREACHABLE, _ => let+ (s, _) := no_dead_code_below after s in Pass s (XNone, [])
  | N_FUNCTION_PROTO, PProto name ret num external export ps =>
      validate_stmt_func_decl src sub s name ret num external export ps child
  | N_VAR_DEF, PVarDef name e implicit is_const exported =>
      let+ (s, p) := validate_stmt_var_def w src s tok (n_token_end n) name e implicit is_const exported in
      Pass s (p, [])
  | N_VAR_ASSIGN, PAssign e =>
      let+ (s, p) := validate_stmt_var_assign w src s tok e in Pass s (p, [])
  | N_EXPR, PExpr e =>
      let+ (s, p) := validate_expr_func w src s tok e in Pass s (p, map untouched child)
  | N_IF, PExpr e =>
      let+ (s, _) := is_missing_block (u "if") tok child s in
      let+ (s, x) := validate_condition w src s e in
      let+ (s, c) := setup_and_validate sub s in
      Pass s (XExpr x, c)
  | N_ELSE, _ =>
      let+ (s, _) := validate_control_not_missing_if before tok s in
      let+ (s, _) := is_missing_block (u "else") tok child s in
      let+ (s, c) := setup_and_validate sub s in
      Pass s (XNone, c)
  | N_ELIF, PExpr e =>
      let+ (s, _) := is_missing_block (u "elif") tok child s in
      let+ (s, _) := validate_control_not_missing_if before tok s in
      let+ (s, x) := validate_condition w src s e in
      let+ (s, c) := setup_and_validate sub s in
      Pass s (XExpr x, c)
  | N_WHILE, PExpr e =>
      let+ (s, (x, c)) := validate_control_while w src sub s tok e child in
      Pass s (XExpr x, c)
  | N_BREAK, _ =>
      if 0 <? s_depth s then let+ (s, _) := no_dead_code_below after s in Pass s (XNone, [])
      else get l := loc_of tok in reject S_BREAK_NOT_IN_WHILE (Some l) s
  | N_CONTINUE, _ =>
      if 0 <? s_depth s then let+ (s, _) := no_dead_code_below after s in Pass s (XNone, [])
      else get l := loc_of tok in reject S_CONTINUE_NOT_IN_WHILE (Some l) s
  | N_NAMESPACE, _ =>
      let+ (s, (k, c)) := validate_control_namespace src sub s tok in
      Pass s (XSpace k, c)
  | N_IMPORT, _ => let+ (s, _) := validate_stmt_import w src s tok in Pass s (XNone, [])
  | (N_UNKNOWN | N_COMMENT | N_NOOP), _ => Pass s (XNone, [])
  | _, _ => Crash
  end.

(** The loop of validate_ast_sub_tree, skull/semantic/entry.c:36-40. *)
Definition walk (vn : list ntype -> list node -> node -> sst -> sres tnode) :=
  fix go (before : list ntype) (l : list node) (s : sst) {struct l} : sres (list tnode) :=
    match l with
    | [] => Pass s []
    | n :: r =>
        let+ (s, x) := vn before r n s in
        let+ (s, xs) := go (n_type n :: before) r s in
        Pass s (x :: xs)
    end.

(** validate_ast_node, skull/semantic/entry.c:63-84. A call with a block behind it passes
    and the block is not looked at. *)
Fixpoint validate_ast_node (w : world) (src : text) (before : list ntype) (after : list node) (n : node)
    (s : sst) {struct n} : sres tnode :=
  match n with
  | mknode ty tok te pay child =>
      let+ (s, _) := assert_sane_child (mknode ty tok te pay child) s in
      let+ (s, (p, c)) :=
        validate_by_type w src (walk (validate_ast_node w src) [] child) before after
          (mknode ty tok te pay child) s in
      Pass s (mktnode ty tok p c)
  end.

(** setup_semantic_state, skull/semantic/shared.c:14-34; the name of the main function is
    never looked up, no message has it (only the end of a function has one with the name of
    the current function, which is not main then), and it is left empty. *)
Definition main_symbol : symbol :=
  mksym [] (mkloc 0 0) (KFunc (mkfunc false false TInt 0 [] false)).
Definition setup_semantic_state : sst := mksst None [] [main_symbol] 0 0 None 0 [].

(** check_unused_symbols, skull/semantic/unused.c:11-57, on the tree after the checks: the
    messages and whether it returned true. The loop over one list has the flag `err`. *)
Definition warn_if (w : world) (b : bool) (c : scode) (y : symbol) (st : list smsg * bool) : list smsg * bool :=
  if b then (mksmsg c (Some (y_loc y)) :: fst st, snd st || w_werror w) else st.
Definition unused_def (w : world) (y : symbol) (st : list smsg * bool) : res (list smsg * bool) :=
  match y_kind y with
  | KVar v =>
      Ok (warn_if w (negb (v_read v) && negb (v_exported v)) (S_WARN_VAR_UNUSED (y_name y)) y
            (warn_if w (negb (v_const v) && negb (v_reassigned v)) (S_WARN_VAR_NOT_CONST (y_name y)) y st))
  | _ => UB
  end.
Definition unused_func (w : world) (y : symbol) (st : list smsg * bool) : res (list smsg * bool) :=
  match y_kind y with
  | KFunc f => Ok (warn_if w (negb (f_called f)) (S_WARN_FUNC_UNUSED (y_name y)) y st)
  | _ => UB
  end.
Definition unused_loop (un : tnode -> list smsg * bool -> res (list smsg * bool)) :=
  fix go (l : list tnode) (st : list smsg * bool) {struct l} : res (list smsg * bool) :=
    match l with
    | [] => Ok st
    | n :: r => do st <- un n st; go r st
    end.
Fixpoint unused_node (w : world) (ys : list symbol) (n : tnode) (st : list smsg * bool) {struct n}
    : res (list smsg * bool) :=
  match n with
  | mktnode ty tok pay child =>
      match ty with
      | N_VAR_DEF =>
          match pay with
          | XDef k _ => do y <- deref ys k; unused_def w y st
          | _ => Ok st
          end
      | N_FUNCTION_PROTO =>
          match pay with
          | XProto k _ => do y <- deref ys k; unused_func w y st
          | _ => UB
          end
      | _ =>
          match child with
          | [] => Ok st
          | _ :: _ =>
              do st' <- unused_loop (unused_node w ys) child (fst st, false);
              Ok (fst st', snd st && negb (snd st'))
          end
      end
  end.
Definition check_unused_symbols (w : world) (s : sst) (l : list tnode) : sres unit :=
  if w_quiet w then Pass s tt
  else
    get st := unused_loop (unused_node w (s_syms s)) l (s_msgs s, false) in
    if snd st then Stop (fst st) else Pass (set_msgs s (fst st)) tt.

(** validate_ast_tree, skull/semantic/entry.c:25-30, from the state of
    setup_semantic_state, with the end of validate_ast_sub_tree, 42. *)
Definition validate_ast_tree (w : world) (src : text) (tree : list node) : sres (list tnode) :=
  let+ (s, l) := walk (validate_ast_node w src) [] tree setup_semantic_state in
  get s := reset_scope_head s in
  let+ (s, _) := check_unused_symbols w s l in
  Pass s l.
