(** How programs are written: the grammar of statements, and the tree that a text stands for. *)
From Coq Require Import List Arith NArith Bool Ascii String.
From Verif Require Import Base Model_Token Model_Parse Spec_Parse.
Import ListNotations.
Open Scope list_scope.
Open Scope N_scope.

(** Source statements: words of their own and comments; return; definitions; assignments;
    calls; imports; if, elif, else and while with their block; namespaces; functions; external
    functions. Parameters are a name and the tokens of a type. *)
Inductive stmt :=
| SWord (ty : ntype)
| SReturn (c : option cst)
| SDef (mutable exported : bool) (x : token) (ty : option (list token)) (c : cst)
| SAssign (x : token) (c : cst)
| SCall (f : token) (args : list cst)
| SImport (x : token)
| SBlock (ty : ntype) (c : option cst) (b : list stmt)
| SSpace (x : token) (b : list stmt)
| SFunc (exported : bool) (x : token) (ps : list (token * list token)) (ret : list token) (b : list stmt)
| SExtern (x : token) (ps : list (token * list token)) (ret : list token).

(** * The grammar

    `..._at ts x rest`: x is written at the start of ts, and rest is behind it. *)

Definition expr_at (ts : list token) (c : cst) (rest : list token) : Prop :=
  exists used, ts = used ++ rest /\ prints c used /\ single_unary c.

(** What may stand behind a statement on the same line. *)
Definition line_end (ts : list token) : Prop :=
  match ts with [] => True | t :: _ => In (t_type t) [T_NEWLINE; T_BRACKET_CLOSE; T_COMMENT] end.
(** The same behind a definition. *)
Definition bare_end (ts : list token) : Prop :=
  match ts with [] => True | t :: _ => t_type t = T_NEWLINE end.

Inductive params_at : list token -> list (token * list token) -> list token -> Prop :=
| pa_none : forall pc r, t_type pc = T_PAREN_CLOSE -> params_at (pc :: r) [] r
| pa_last : forall x ty pc r, t_type x = T_NEW_IDENTIFIER -> bare_type ty -> t_type pc = T_PAREN_CLOSE ->
    params_at (x :: ty ++ pc :: r) [(x, ty)] r
| pa_comma : forall x ty comma more p ps r, t_type x = T_NEW_IDENTIFIER -> bare_type ty -> t_type comma = T_COMMA ->
    params_at more (p :: ps) r -> params_at (x :: ty ++ comma :: more) ((x, ty) :: p :: ps) r.

(** `name(parameters) type`, the type may be missing. *)
Inductive head_at (x : token) (ps : list (token * list token)) : list token -> list token -> list token -> Prop :=
| ha_void : forall po r r', t_type x = T_IDENTIFIER -> t_type po = T_PAREN_OPEN -> params_at r ps r' ->
    N.of_nat (List.length ps) < 2 ^ 16 -> head_at x ps (x :: po :: r) [] r'
| ha_type : forall po r ty r', t_type x = T_IDENTIFIER -> t_type po = T_PAREN_OPEN -> params_at r ps (ty ++ r') ->
    N.of_nat (List.length ps) < 2 ^ 16 -> bare_type ty -> head_at x ps (x :: po :: r) ty r'.

(** The words in front of a declaration. *)
Definition modified (mods : list token) (mutable exported : bool) : Prop :=
  match mutable, exported with
  | false, false => mods = []
  | true, false => exists t, mods = [t] /\ t_type t = T_KW_MUT
  | false, true => exists t, mods = [t] /\ t_type t = T_KW_EXPORT
  | true, true => False
  end.

Inductive stmt_at : list token -> stmt -> list token -> Prop :=
| sa_word : forall t r ty, keyword ty (t_type t) -> In ty [N_UNREACHABLE; N_COMMENT; N_NOOP; N_BREAK; N_CONTINUE] ->
    stmt_at (t :: r) (SWord ty) r
| sa_return : forall t r, t_type t = T_KW_RETURN -> line_end r -> stmt_at (t :: r) (SReturn None) r
| sa_result : forall t r c r', t_type t = T_KW_RETURN -> expr_at r c r' -> line_end r' -> stmt_at (t :: r) (SReturn (Some c)) r'
| sa_define : forall mods m e x q r c r', modified mods m e -> t_type x = T_IDENTIFIER -> t_type q = T_OPER_AUTO_EQUAL ->
    expr_at r c r' -> bare_end r' -> stmt_at (mods ++ x :: q :: r) (SDef m e x None c) r'
| sa_declare : forall mods m e x ty q r c r', modified mods m e -> t_type x = T_NEW_IDENTIFIER -> bare_type ty ->
    t_type q = T_OPER_EQUAL -> expr_at r c r' -> bare_end r' -> stmt_at (mods ++ x :: ty ++ q :: r) (SDef m e x (Some ty) c) r'
| sa_assign : forall x q r c r', name_like (t_type x) -> t_type q = T_OPER_EQUAL -> expr_at r c r' -> line_end r' ->
    stmt_at (x :: q :: r) (SAssign x c) r'
| sa_call : forall ts f args r', expr_at ts (CCall f args) r' -> line_end r' -> stmt_at ts (SCall f args) r'
| sa_import : forall t x r, t_type t = T_KW_IMPORT -> t_type x = T_IDENTIFIER -> line_end r -> stmt_at (t :: x :: r) (SImport x) r
| sa_if : forall t r ty c r1 b r2, keyword ty (t_type t) -> In ty [N_IF; N_ELIF; N_WHILE] ->
    expr_at r c r1 -> block_at r1 b r2 -> stmt_at (t :: r) (SBlock ty (Some c) b) r2
| sa_else : forall t r b r2, t_type t = T_KW_ELSE -> block_at r b r2 -> stmt_at (t :: r) (SBlock N_ELSE None b) r2
| sa_space : forall t x r b r2, t_type t = T_KW_NAMESPACE -> name_like (t_type x) -> block_at r b r2 ->
    stmt_at (t :: x :: r) (SSpace x b) r2
| sa_func : forall mods e x ps ts ret bo r b r2, modified mods false e -> head_at x ps ts ret (bo :: r) ->
    t_type bo = T_BRACKET_OPEN -> block_at (bo :: r) b r2 -> stmt_at (mods ++ ts) (SFunc e x ps ret b) r2
| sa_extern : forall t x ps ts ret nl r, t_type t = T_KW_EXTERNAL -> head_at x ps ts ret (nl :: r) ->
    t_type nl = T_NEWLINE -> stmt_at (t :: ts) (SExtern x ps ret) (nl :: r)
with block_at : list token -> list stmt -> list token -> Prop :=
| ba_block : forall bo r b bc r2, t_type bo = T_BRACKET_OPEN -> stmts_at r b (bc :: r2) -> b <> [] ->
    t_type bc = T_BRACKET_CLOSE -> block_at (bo :: r) b r2
| ba_line : forall nl r b r2, t_type nl = T_NEWLINE -> block_at r b r2 -> block_at (nl :: r) b r2
with stmts_at : list token -> list stmt -> list token -> Prop :=
| ss_nil : forall r, stmts_at r [] r
| ss_line : forall nl r l r', t_type nl = T_NEWLINE -> stmts_at r l r' -> stmts_at (nl :: r) l r'
| ss_cons : forall ts s r l r', stmt_at ts s r -> stmts_at r l r' -> stmts_at ts (s :: l) r'.

(** * What the statements stand for *)

(** The expression has the operands and operators of the source in order, and their grouping
    if the parser groups the source right. *)
Definition says (e : expr) (c : cst) : Prop :=
  (exists ts, prints c ts /\ yield e = syms ts) /\ (grouped c -> plain c -> same e c).

Definition param_says (p : param) (q : token * list token) : Prop :=
  pm_name p = fst q /\ exists r, pm_type p = snd q ++ r.
Definition type_says (ts ty : list token) : Prop :=
  match ty with [] => ts = [] | _ => exists r, ts = ty ++ r end.

Inductive stands : node -> stmt -> Prop :=
| st_word : forall n ty, n_type n = ty -> n_pay n = PNone -> n_child n = [] -> stands n (SWord ty)
| st_return : forall n, n_type n = N_RETURN -> n_pay n = PNone -> n_child n = [] -> stands n (SReturn None)
| st_result : forall n e c, n_type n = N_RETURN -> n_pay n = PExpr e -> says e c -> n_child n = [] -> stands n (SReturn (Some c))
| st_define : forall n m x r e ex c, n_type n = N_VAR_DEF -> n_pay n = PVarDef (x :: r) e true (negb m) ex -> says e c ->
    n_child n = [] -> stands n (SDef m ex x None c)
| st_declare : forall n m x ty r e ex c, n_type n = N_VAR_DEF -> n_pay n = PVarDef (x :: ty ++ r) e false (negb m) ex -> says e c ->
    n_child n = [] -> stands n (SDef m ex x (Some ty) c)
| st_assign : forall n x r e c, n_type n = N_VAR_ASSIGN -> n_token n = x :: r -> n_pay n = PAssign e -> says e c ->
    n_child n = [] -> stands n (SAssign x c)
| st_call : forall n e f args, n_type n = N_EXPR -> n_pay n = PExpr e -> says e (CCall f args) -> n_child n = [] -> stands n (SCall f args)
| st_import : forall n t x r, n_type n = N_IMPORT -> n_token n = t :: x :: r -> n_pay n = PNone -> n_child n = [] -> stands n (SImport x)
| st_if : forall n e c b, In (n_type n) [N_IF; N_ELIF; N_WHILE] -> n_pay n = PExpr e -> says e c -> all_stand (n_child n) b ->
    stands n (SBlock (n_type n) (Some c) b)
| st_else : forall n b, n_type n = N_ELSE -> n_pay n = PNone -> all_stand (n_child n) b -> stands n (SBlock N_ELSE None b)
| st_space : forall n t x r b, n_type n = N_NAMESPACE -> n_token n = t :: x :: r -> n_pay n = PNone -> all_stand (n_child n) b ->
    stands n (SSpace x b)
| st_func : forall n x rt k ex ps' ps ret b, n_type n = N_FUNCTION_PROTO -> n_pay n = PProto x rt k false ex ps' ->
    Forall2 param_says ps' ps -> k = N.of_nat (List.length ps) -> type_says rt ret -> all_stand (n_child n) b ->
    stands n (SFunc ex x ps ret b)
| st_extern : forall n x rt k ps' ps ret, n_type n = N_FUNCTION_PROTO -> n_pay n = PProto x rt k true false ps' ->
    Forall2 param_says ps' ps -> k = N.of_nat (List.length ps) -> type_says rt ret -> n_child n = [] ->
    stands n (SExtern x ps ret)
with all_stand : list node -> list stmt -> Prop :=
| al_nil : all_stand [] []
| al_cons : forall n s l b, stands n s -> all_stand l b -> all_stand (n :: l) (s :: b).
