(** What an accepted program may rely on. *)
From Coq Require Import List Arith NArith ZArith Bool Ascii String.
From Verif Require Import Base Model_Token Model_Utf8 Spec_Utf8 Spec_Classify Model_Literal Spec_Literal Model_Parse Spec_Parse Model_Sem.
Import ListNotations.
Open Scope list_scope.
Open Scope N_scope.

(** The program with this source text and these tokens is parsed to `tree` and passes the
    checks with the final state s and the annotated tree l. *)
Definition accepted (w : world) (src : text) (ts : list token) (tree : list node) (s : sst) (l : list tnode) : Prop :=
  (exists m, parse_ast_tree ts = Ret m (Some tree)) /\ validate_ast_tree w src tree = Pass s l.

(** No block stands behind a call that is used as a statement. (The checks accept such
    blocks and do not look at them.) *)
Definition no_call_blocks (tree : list node) : Prop :=
  forall n, in_tree n tree -> n_type n = N_EXPR -> n_child n = [].

(** * Control flow *)

(** `enclosed b l b' n`: n is a node in l or below it; b says whether the list l is inside
    of a loop, b' whether n is: a loop counts for all nodes below it, except for the
    nodes in functions defined inside of it. *)
Definition enter (m : node) (b : bool) : bool :=
  match n_type m with N_WHILE => true | N_FUNCTION_PROTO => false | _ => b end.
Inductive enclosed : bool -> list node -> bool -> node -> Prop :=
| en_here : forall b l n, In n l -> enclosed b l b n
| en_below : forall b l m b' n, In m l -> enclosed (enter m b) (n_child m) b' n -> enclosed b l b' n.

(** The blocks of a program: the program itself and the nodes below each node. *)
Inductive block_of : list node -> list node -> Prop :=
| bo_top : forall t, block_of t t
| bo_below : forall t n, in_tree n t -> block_of t (n_child n).

(** Statements behind which nothing is executed. *)
Definition leaves (ty : ntype) : Prop :=
  ty = N_RETURN \/ ty = N_UNREACHABLE \/ ty = N_BREAK \/ ty = N_CONTINUE.
(** Statements that do nothing. *)
Definition idle (ty : ntype) : Prop := ty = N_COMMENT \/ ty = N_UNREACHABLE \/ ty = N_NOOP.

(** * Names and types *)

(** The name a token spells, as UTF-8. *)
Definition spells (src : text) (t : token) (n : text) : Prop :=
  exists b, t_begin t = Some b /\ utf8 (firstn (N.to_nat (t_len t)) (skipn b src)) n.

(** Names in scope, nearest first, with the number of their declaration; and what the
    declarations say. A namespace has the names in scope at the end of its block. *)
Definition env := list (text * nat).
Inductive decl :=
| DVar (t : ty) (mut : bool)
| DFun (params : list ty) (result : ty)
| DType (t : option ty)
| DSpace (inside : env).
Definition decls := nat -> option decl.

(** The declaration a name stands for. A dotted name is looked up from left to right. *)
Inductive resolves (D : decls) : env -> text -> nat -> Prop :=
| re_here : forall n k e, ~ In (chr ".") n -> resolves D ((n, k) :: e) n k
| re_there : forall m j e n k, ~ In (chr ".") n -> n <> m -> resolves D e n k ->
    resolves D ((m, j) :: e) n k
| re_inside : forall e a j inside b k, ~ In (chr ".") a -> resolves D e a j ->
    D j = Some (DSpace inside) -> resolves D inside b k ->
    resolves D e (a ++ chr "." :: b) k.

(** The names of the builtin types. *)
Inductive builtin : text -> ty -> Prop :=
| bi_bool : builtin (u "Bool") TBool
| bi_int : builtin (u "Int") TInt
| bi_float : builtin (u "Float") TFloat
| bi_rune : builtin (u "Rune") TRune
| bi_str : builtin (u "Str") TStr
| bi_void : builtin (u "Void") TVoid.

(** The type written at the start of these tokens. *)
Inductive type_at (D : decls) (src : text) (e : env) : list token -> ty -> Prop :=
| ta_builtin : forall t r n ty, name_like (t_type t) -> spells src t n -> builtin n ty ->
    type_at D src e (t :: r) ty
| ta_alias : forall t r n k ty, name_like (t_type t) -> spells src t n -> resolves D e n k ->
    D k = Some (DType (Some ty)) -> type_at D src e (t :: r) ty
| ta_ref : forall t r ty, t_type t = T_OPER_REF -> type_at D src e r ty ->
    type_at D src e (t :: r) (TRef ty).

(** A name may be declared if it is no builtin type and if it is not declared already.
    (Declarations of a type without meaning do not count, see names_are_declared_once_refuted.) *)
Definition fresh (D : decls) (e : env) (n : text) : Prop :=
  (forall ty, ~ builtin n ty) /\
  (~ In (chr ".") n -> forall k, resolves D e n k -> D k = Some (DType None)).

(** Types of operands and results. *)
Definition is_number (t : ty) : Prop := t = TInt \/ t = TFloat.
Inductive oper_type : binop -> ty -> ty -> Prop :=
| ot_arith : forall o t, In o [BAdd; BSub; BMult; BDiv; BMod; BPow] -> is_number t -> oper_type o t t
| ot_shift : forall o, In o [BLshift; BRshift] -> oper_type o TInt TInt
| ot_order : forall o t, In o [BLess; BGtr; BLessEq; BGtrEq] -> is_number t -> oper_type o t TBool
| ot_equal : forall o t, In o [BIs; BIsnt] -> oper_type o t TBool
| ot_logic : forall o, In o [BAnd; BOr; BXor] -> oper_type o TBool TBool.

Inductive literal_type : ttype -> ty -> Prop :=
| lt_int : literal_type T_INT_CONST TInt
| lt_float : literal_type T_FLOAT_CONST TFloat
| lt_bool : literal_type T_BOOL_CONST TBool
| lt_rune : literal_type T_RUNE_CONST TRune
| lt_str : literal_type T_STR_CONST TStr.

Inductive has_type (D : decls) (src : text) (e : env) : expr -> ty -> Prop :=
| ht_var : forall t n k ty m, spells src t n -> resolves D e n k -> D k = Some (DVar ty m) ->
    has_type D src e (EVar t) ty
| ht_literal : forall t ty, literal_type (t_type t) ty -> has_type D src e (EConst t) ty
| ht_call : forall name args num n k ps r, spells src name n -> resolves D e n k ->
    D k = Some (DFun ps r) -> have_types D src e (map snd args) ps ->
    has_type D src e (ECall name args num) r
| ht_neg : forall a ty, has_type D src e a ty -> is_number ty -> has_type D src e (EUn UNeg (Some a)) ty
| ht_not : forall a, has_type D src e a TBool -> has_type D src e (EUn UNot (Some a)) TBool
| ht_ref : forall t ty, has_type D src e (EVar t) ty -> has_type D src e (EUn URef (Some (EVar t))) (TRef ty)
| ht_deref : forall t ty, has_type D src e (EVar t) (TRef ty) -> has_type D src e (EUn UDeref (Some (EVar t))) ty
| ht_bin : forall o a b ty r, has_type D src e a ty -> has_type D src e b ty -> oper_type o ty r ->
    has_type D src e (EBin o (Some a) b) r
with have_types (D : decls) (src : text) (e : env) : list expr -> list ty -> Prop :=
| hts_nil : have_types D src e [] []
| hts_cons : forall a l t ts, has_type D src e a t -> have_types D src e l ts ->
    have_types D src e (a :: l) (t :: ts).

(** What the literal of a token stands for. The values are those of Spec_Literal.v. *)
Inductive literal_value (w : world) (src : text) (t : token) : value -> ty -> Prop :=
| lv_int : forall z, t_type t = T_INT_CONST -> eval_integer src t = Ok (Val z) -> literal_value w src t (VInt z) TInt
| lv_float : forall f, t_type t = T_FLOAT_CONST -> eval_float src t = Ok f -> literal_value w src t (VFloat f) TFloat
| lv_bool : t_type t = T_BOOL_CONST -> literal_value w src t (VBool (eval_bool t)) TBool
| lv_rune : forall c, t_type t = T_RUNE_CONST -> eval_rune (w_wide w) src t = Ok (Val c) ->
    literal_value w src t (VRune c) TRune
| lv_str : forall b, t_type t = T_STR_CONST -> const_str src t = Some (Ok (Val b)) ->
    literal_value w src t (VStr b) TStr.

(** `elab D w src e a x`: x is the expression a with the declarations, values and types
    filled in for the names e in scope. *)
Inductive elab (D : decls) (w : world) (src : text) (e : env) : expr -> texpr -> Prop :=
| el_var : forall t n k ty m c, spells src t n -> resolves D e n k -> D k = Some (DVar ty m) ->
    elab D w src e (EVar t) (XVar t k ty c)
| el_const : forall t v ty, literal_value w src t v ty -> elab D w src e (EConst t) (XConst t v ty)
| el_call : forall name args num n k ps r xs, spells src name n -> resolves D e n k ->
    D k = Some (DFun ps r) -> elabs D w src e (map snd args) xs -> map x_ty xs = ps ->
    elab D w src e (ECall name args num) (XCall name k xs r)
| el_neg : forall a x c, elab D w src e a x -> is_number (x_ty x) ->
    elab D w src e (EUn UNeg (Some a)) (XUn UNeg x (x_ty x) c)
| el_not : forall a x c, elab D w src e a x -> x_ty x = TBool ->
    elab D w src e (EUn UNot (Some a)) (XUn UNot x TBool c)
| el_ref : forall t x c, elab D w src e (EVar t) x ->
    elab D w src e (EUn URef (Some (EVar t))) (XUn URef x (TRef (x_ty x)) c)
| el_deref : forall t x ty c, elab D w src e (EVar t) x -> x_ty x = TRef ty ->
    elab D w src e (EUn UDeref (Some (EVar t))) (XUn UDeref x ty c)
| el_bin : forall o a b x y r c, elab D w src e a x -> elab D w src e b y -> x_ty x = x_ty y ->
    oper_type o (x_ty y) r ->
    (o = BDiv \/ o = BMod -> forall t ty, y <> XConst t (VInt 0) ty) ->
    elab D w src e (EBin o (Some a) b) (XBin o x y r c)
with elabs (D : decls) (w : world) (src : text) (e : env) : list expr -> list texpr -> Prop :=
| els_nil : elabs D w src e [] []
| els_cons : forall a l x xs, elab D w src e a x -> elabs D w src e l xs -> elabs D w src e (a :: l) (x :: xs).

(** Parameters: the names they add, their types and their declarations. *)
Inductive params_ok (D : decls) (src : text) : env -> list param -> list ty -> list nat -> env -> Prop :=
| po_nil : forall e, params_ok D src e [] [] [] e
| po_cons : forall e p ps t ts n k ks e',
    type_at D src e (pm_type p) t -> spells src (pm_name p) n -> fresh D e n ->
    D k = Some (DVar t false) -> params_ok D src ((n, k) :: e) ps ts ks e' ->
    params_ok D src e (p :: ps) (t :: ts) (k :: ks) e'.

(** Well formed statements and blocks: the names in scope before and behind, and the
    checked statement. *)
Inductive stmt_ok (D : decls) (w : world) (src : text) : env -> node -> tnode -> env -> Prop :=
| so_definition : forall e n name rest v implicit const exported y x k,
    n_type n = N_VAR_DEF -> n_child n = [] -> n_pay n = PVarDef (name :: rest) v implicit const exported ->
    elab D w src e v y ->
    (forall f a m, v = ECall f a m -> x_ty y <> TVoid) ->
    (implicit = false -> type_at D src e rest (x_ty y)) ->
    spells src name x -> fresh D e x -> D k = Some (DVar (x_ty y) (negb const)) ->
    stmt_ok D w src e n (mktnode N_VAR_DEF (n_token n) (XDef k y) []) ((x, k) :: e)
| so_alias : forall e n name v implicit exported t q r x k ty,
    n_type n = N_VAR_DEF -> n_child n = [] -> n_pay n = PVarDef name v implicit true exported ->
    n_token n = t :: q :: r -> spells src t x -> fresh D e x -> D k = Some (DType ty) ->
    (forall ty', ty = Some ty' -> type_at D src e r ty') ->
    (implicit = true -> exported = false -> ty <> None) ->
    stmt_ok D w src e n (mktnode N_VAR_DEF (n_token n) XAlias []) ((x, k) :: e)
| so_assignment : forall e n v t q r x k ty y,
    n_type n = N_VAR_ASSIGN -> n_child n = [] -> n_pay n = PAssign v -> n_token n = t :: q :: r ->
    spells src t x -> resolves D e x k -> D k = Some (DVar ty true) -> elab D w src e v y -> x_ty y = ty ->
    stmt_ok D w src e n (mktnode N_VAR_ASSIGN (n_token n) (XSet k y) []) e
| so_call : forall e n f a m y,
    n_type n = N_EXPR -> n_child n = [] -> n_pay n = PExpr (ECall f a m) -> elab D w src e (ECall f a m) y ->
    stmt_ok D w src e n (mktnode N_EXPR (n_token n) (XExpr y) []) e
| so_return : forall e n v y,
    n_type n = N_RETURN -> n_child n = [] -> n_pay n = PExpr v -> elab D w src e v y ->
    stmt_ok D w src e n (mktnode N_RETURN (n_token n) (XExpr y) []) e
| so_condition : forall e n v y c e',
    In (n_type n) [N_IF; N_ELIF; N_WHILE] -> n_pay n = PExpr v -> elab D w src e v y -> x_ty y = TBool ->
    block_ok D w src e (n_child n) c e' ->
    stmt_ok D w src e n (mktnode (n_type n) (n_token n) (XExpr y) c) e
| so_else : forall e n c e', n_type n = N_ELSE -> block_ok D w src e (n_child n) c e' ->
    stmt_ok D w src e n (mktnode N_ELSE (n_token n) XNone c) e
| so_function : forall e n name ret num ext exp ps ts ks r x k e1 c e2,
    n_type n = N_FUNCTION_PROTO -> n_pay n = PProto name ret num ext exp ps ->
    (ret = [] /\ r = TVoid \/ type_at D src e ret r) ->
    spells src name x -> fresh D e x -> D k = Some (DFun ts r) ->
    params_ok D src ((x, k) :: e) ps ts ks e1 -> block_ok D w src e1 (n_child n) c e2 ->
    stmt_ok D w src e n (mktnode N_FUNCTION_PROTO (n_token n) (XProto k ks) c) ((x, k) :: e)
| so_namespace : forall e n t q r x k c e',
    n_type n = N_NAMESPACE -> n_token n = q :: t :: r -> spells src t x -> fresh D e x ->
    D k = Some (DSpace e') -> block_ok D w src ((x, k) :: e) (n_child n) c e' ->
    stmt_ok D w src e n (mktnode N_NAMESPACE (n_token n) (XSpace k) c) ((x, k) :: e)
| so_other : forall e n,
    n_pay n = PNone -> n_child n = [] ->
    In (n_type n) [N_RETURN; N_UNREACHABLE; N_BREAK; N_CONTINUE; N_IMPORT; N_COMMENT; N_NOOP; N_UNKNOWN] ->
    stmt_ok D w src e n (mktnode (n_type n) (n_token n) XNone []) e
with block_ok (D : decls) (w : world) (src : text) : env -> list node -> list tnode -> env -> Prop :=
| bk_nil : forall e, block_ok D w src e [] [] e
| bk_cons : forall e n l x xs e1 e2, stmt_ok D w src e n x e1 -> block_ok D w src e1 l xs e2 ->
    block_ok D w src e (n :: l) (x :: xs) e2.

(** A program is well formed if some declarations make it so; `checked` is what is handed
    to the code generators. *)
Definition well_formed (w : world) (src : text) (tree : list node) (checked : list tnode) : Prop :=
  exists D e, block_ok D w src [] tree checked e.

(** Parts of an expression. *)
Inductive part : expr -> expr -> Prop :=
| pt_self : forall e, part e e
| pt_arg : forall x name args n p a, In (p, a) args -> part x a -> part x (ECall name args n)
| pt_un : forall x o a, part x a -> part x (EUn o (Some a))
| pt_left : forall x o a b, part x a -> part x (EBin o (Some a) b)
| pt_right : forall x o a b, part x b -> part x (EBin o a b).

(** Calls have fewer than 2^16 arguments. (The parser counts them in 16 bits, see
    calls_match_refuted.) *)
Definition few_arguments (tree : list node) : Prop :=
  forall n e name args k, in_tree n tree -> node_expr n = Some e -> part (ECall name args k) e ->
  N.of_nat (List.length args) < 2 ^ 16.

(** * The checked tree *)

(** x is the checked form of the node n: they stand at the same place. *)
Inductive paired (n : node) (x : tnode) : list node -> list tnode -> Prop :=
| pa_here : forall l xs, paired n x (n :: l) (x :: xs)
| pa_next : forall m y l xs, paired n x l xs -> paired n x (m :: l) (y :: xs)
| pa_below : forall m y l xs, paired n x (n_child m) (tn_child y) -> paired n x (m :: l) (y :: xs).

(** The expression of a checked node, and the parts of a checked expression. *)
Definition checked_expr (x : tnode) : option texpr :=
  match tn_pay x with XDef _ e | XSet _ e | XExpr e => Some e | _ => None end.
Inductive xpart : texpr -> texpr -> Prop :=
| xp_self : forall e, xpart e e
| xp_arg : forall x name k args ty a, In a args -> xpart x a -> xpart x (XCall name k args ty)
| xp_un : forall x o a ty c, xpart x a -> xpart x (XUn o a ty c)
| xp_left : forall x o a b ty c, xpart x a -> xpart x (XBin o a b ty c)
| xp_right : forall x o a b ty c, xpart x b -> xpart x (XBin o a b ty c).

(** The names a node declares for the nodes behind it and for the nodes below it, with
    the number of the declaration. Aliases have no number. *)
Inductive declares (src : text) (n : node) (x : tnode) : text -> option nat -> Prop :=
| dc_variable : forall t r v implicit const exported k y nm,
    n_pay n = PVarDef (t :: r) v implicit const exported -> tn_pay x = XDef k y -> spells src t nm ->
    declares src n x nm (Some k)
| dc_alias : forall t r name v nm, n_pay n = PVarDef name v true true false -> tn_pay x = XAlias ->
    n_token n = t :: r -> spells src t nm -> declares src n x nm None
| dc_function : forall name ret num ext exp ps k ks nm, n_pay n = PProto name ret num ext exp ps ->
    tn_pay x = XProto k ks -> spells src name nm -> declares src n x nm (Some k)
| dc_namespace : forall q t r k nm, n_token n = q :: t :: r -> tn_pay x = XSpace k -> spells src t nm ->
    declares src n x nm (Some k).
Inductive declares_below (src : text) (n : node) (x : tnode) : text -> option nat -> Prop :=
| db_name : forall nm o, declares src n x nm o -> declares_below src n x nm o
| db_param : forall name ret num ext exp ps k ks i p j nm, n_pay n = PProto name ret num ext exp ps ->
    tn_pay x = XProto k ks -> nth_error ps i = Some p -> nth_error ks i = Some j -> spells src (pm_name p) nm ->
    declares_below src n x nm (Some j).

(** `visible src n x l xs nm o d y`: for the node n the name nm is declared by d, which
    stands before n in the same block or before or above n in an enclosing one. *)
Inductive visible (src : text) (n : node) (x : tnode) : list node -> list tnode -> text -> option nat -> node -> tnode -> Prop :=
| vi_ahead : forall d y l xs nm o, declares src d y nm o -> paired n x l xs -> visible src n x (d :: l) (y :: xs) nm o d y
| vi_above : forall d y l xs nm o, declares_below src d y nm o -> paired n x (n_child d) (tn_child y) ->
    visible src n x (d :: l) (y :: xs) nm o d y
| vi_next : forall m z l xs nm o d y, visible src n x l xs nm o d y -> visible src n x (m :: l) (z :: xs) nm o d y
| vi_below : forall m z l xs nm o d y, visible src n x (n_child m) (tn_child z) nm o d y ->
    visible src n x (m :: l) (z :: xs) nm o d y.

(** Aliases are written as `name := type`. (Other aliases have no meaning, see
    names_are_declared_once_refuted.) *)
Definition plain_aliases (tree : list node) (checked : list tnode) : Prop :=
  forall n x, paired n x tree checked -> tn_pay x = XAlias ->
  exists name v const, n_pay n = PVarDef name v true const false.

(** The number of the declaration a checked expression uses for a name. *)
Definition uses (x : tnode) (y : texpr) : Prop := exists e, checked_expr x = Some e /\ xpart y e.
