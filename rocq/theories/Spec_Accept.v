(** The rules of the language: what a program has to keep to pass the checks. *)
From Coq Require Import List Arith NArith ZArith Bool Ascii String.
From Verif Require Import Base Model_Token Model_Utf8 Spec_Utf8 Spec_Classify Model_Literal Spec_Literal Model_Parse Spec_Parse Model_Sem.
From Verif Require Import Spec_Sem Spec_Sem2.
Import ListNotations.
Open Scope list_scope.
Open Scope N_scope.

(** Names that may be declared: written as a name without dots, no builtin type, and not
    in scope yet. *)
Definition new_name (e : env) (x : text) : Prop :=
  name x /\ ~ dotted x /\ (forall ty, ~ builtin x ty) /\ forall k, ~ In (x, k) e.

(** No type is written at the start of these tokens: they start with something else, or
    with the name of a variable or of a function. *)
Inductive no_type_at (D : decls) (src : text) (e : env) : list token -> Prop :=
| nt_other : forall t r, ~ name_like (t_type t) -> t_type t <> T_OPER_REF -> no_type_at D src e (t :: r)
| nt_variable : forall t r n k ty m, name_like (t_type t) -> spells src t n -> resolves D e n k ->
    D k = Some (DVar ty m) -> no_type_at D src e (t :: r)
| nt_function : forall t r n k ps ty, name_like (t_type t) -> spells src t n -> resolves D e n k ->
    D k = Some (DFun ps ty) -> no_type_at D src e (t :: r)
| nt_ref : forall t r, t_type t = T_OPER_REF -> no_type_at D src e r -> no_type_at D src e (t :: r).

(** The floating point literals of an expression are in range. *)
Definition in_range (w : world) (src : text) (v : expr) : Prop :=
  forall t f, part (EConst t) v -> t_type t = T_FLOAT_CONST -> eval_float src t = Ok f -> w_range w f = false.

(** Behind a statement that leaves the block only statements that do nothing follow. *)
Definition nothing_after (l : list node) : Prop := Forall (fun m => idle (n_type m) /\ n_child m = []) l.

(** Which nodes stand before in the same block, nearest first: an if or an elif, up to
    comments. *)
Inductive follows_if : list ntype -> Prop :=
| fi_if : forall l, follows_if (N_IF :: l)
| fi_elif : forall l, follows_if (N_ELIF :: l)
| fi_comment : forall l, follows_if l -> follows_if (N_COMMENT :: l).

(** Where a statement stands: how many loops are around it, the result type of the function
    around it (None in the main program), whether it is outside of all blocks; and whether
    the main program may return. *)
Record place := mkplace { p_loops : N; p_result : option ty; p_top : bool; p_exits : bool }.
Definition in_block (pl : place) : place := mkplace (p_loops pl) (p_result pl) false (p_exits pl).
Definition in_loop (pl : place) : place := mkplace (p_loops pl + 1) (p_result pl) false (p_exits pl).
Definition in_function (r : ty) (pl : place) : place := mkplace 0 (Some r) false (p_exits pl).

Inductive legal_params (D : decls) (src : text) : env -> list param -> list ty -> env -> Prop :=
| lp_nil : forall e, legal_params D src e [] [] e
| lp_cons : forall e p ps t ts n k e',
    type_at D src e (pm_type p) t -> spells src (pm_name p) n -> new_name e n ->
    D k = Some (DVar t false) -> legal_params D src ((n, k) :: e) ps ts e' ->
    legal_params D src e (p :: ps) (t :: ts) e'.

(** `legal_stmt D w src pl before e n after e'`: in a place pl, behind nodes of the types
    `before` and in front of the nodes `after`, with the names e in scope, the statement n
    keeps the rules; e' are the names in scope behind it. *)
Inductive legal_stmt (D : decls) (w : world) (src : text) : place -> list ntype -> env -> node -> list node -> env -> Prop :=
| lg_definition : forall pl b e n a name rest v implicit const exported y x k q r,
    n_type n = N_VAR_DEF -> n_child n = [] -> n_pay n = PVarDef (name :: rest) v implicit const exported ->
    n_token_end n = q :: r -> no_type_at D src e r ->
    elab D w src e v y -> in_range w src v ->
    (forall f l m, v = ECall f l m -> x_ty y <> TVoid) ->
    (implicit = false -> type_at D src e rest (x_ty y)) ->
    spells src name x -> new_name e x -> D k = Some (DVar (x_ty y) (negb const)) ->
    legal_stmt D w src pl b e n a ((x, k) :: e)
| lg_alias : forall pl b e n a name v t q r x k ty,
    n_type n = N_VAR_DEF -> n_child n = [] -> n_pay n = PVarDef name v true true false ->
    n_token n = t :: q :: r -> type_at D src e r ty ->
    (exists t', v = EVar t') \/ (exists o, v = EUn URef o) ->
    spells src t x -> new_name e x -> D k = Some (DType (Some ty)) ->
    legal_stmt D w src pl b e n a ((x, k) :: e)
| lg_assignment : forall pl b e n a v t q x k ty y,
    n_type n = N_VAR_ASSIGN -> n_child n = [] -> n_pay n = PAssign v -> n_token n = t :: q ->
    spells src t x -> resolves D e x k -> D k = Some (DVar ty true) ->
    elab D w src e v y -> in_range w src v -> x_ty y = ty ->
    (forall t' ty' c, y <> XVar t' k ty' c) ->
    legal_stmt D w src pl b e n a e
| lg_call : forall pl b e n a f l m y,
    n_type n = N_EXPR -> n_child n = [] -> n_pay n = PExpr (ECall f l m) ->
    elab D w src e (ECall f l m) y -> in_range w src (ECall f l m) ->
    legal_stmt D w src pl b e n a e
| lg_result : forall pl b e n a v y r,
    n_type n = N_RETURN -> n_child n = [] -> n_pay n = PExpr v ->
    elab D w src e v y -> in_range w src v -> nothing_after a ->
    p_result pl = Some r -> r <> TVoid -> x_ty y = r ->
    legal_stmt D w src pl b e n a e
| lg_exit : forall pl b e n a v y,
    n_type n = N_RETURN -> n_child n = [] -> n_pay n = PExpr v ->
    elab D w src e v y -> in_range w src v -> nothing_after a ->
    p_result pl = None -> p_exits pl = true -> x_ty y = TInt ->
    legal_stmt D w src pl b e n a e
| lg_return : forall pl b e n a,
    n_type n = N_RETURN -> n_child n = [] -> n_pay n = PNone -> nothing_after a ->
    p_result pl = Some TVoid ->
    legal_stmt D w src pl b e n a e
| lg_unreachable : forall pl b e n a,
    n_type n = N_UNREACHABLE -> n_child n = [] -> nothing_after a ->
    legal_stmt D w src pl b e n a e
| lg_jump : forall pl b e n a,
    n_type n = N_BREAK \/ n_type n = N_CONTINUE -> n_child n = [] -> nothing_after a -> 0 < p_loops pl ->
    legal_stmt D w src pl b e n a e
| lg_if : forall pl b e n a v y e',
    n_type n = N_IF \/ n_type n = N_ELIF /\ follows_if b -> n_pay n = PExpr v -> n_child n <> [] ->
    elab D w src e v y -> in_range w src v -> x_ty y = TBool ->
    legal_block D w src (in_block pl) [] e (n_child n) e' ->
    legal_stmt D w src pl b e n a e
| lg_else : forall pl b e n a e',
    n_type n = N_ELSE -> follows_if b -> n_child n <> [] ->
    legal_block D w src (in_block pl) [] e (n_child n) e' ->
    legal_stmt D w src pl b e n a e
| lg_while : forall pl b e n a v y e',
    n_type n = N_WHILE -> n_pay n = PExpr v -> n_child n <> [] ->
    elab D w src e v y -> in_range w src v -> x_ty y = TBool -> p_loops pl + 1 < 2 ^ 32 ->
    legal_block D w src (in_loop pl) [] e (n_child n) e' ->
    legal_stmt D w src pl b e n a e
| lg_function : forall pl b e n a name ret num exp ps ts r x k e1 e2,
    n_type n = N_FUNCTION_PROTO -> n_pay n = PProto name ret num false exp ps ->
    p_result pl = None -> (exp = true -> p_top pl = true) ->
    ret = [] /\ r = TVoid \/ type_at D src e ret r ->
    spells src name x -> new_name e x -> D k = Some (DFun ts r) ->
    legal_params D src ((x, k) :: e) ps ts e1 ->
    legal_block D w src (in_function r pl) [] e1 (n_child n) e2 ->
    (r <> TVoid -> ends_with_value (n_child n)) ->
    legal_stmt D w src pl b e n a ((x, k) :: e)
| lg_external : forall pl b e n a name ret num exp ps ts r x k e1,
    n_type n = N_FUNCTION_PROTO -> n_child n = [] -> n_pay n = PProto name ret num true exp ps ->
    p_result pl = None -> p_top pl = true ->
    ret = [] /\ r = TVoid \/ type_at D src e ret r -> (p_exits pl = true -> r = TInt \/ r = TVoid) ->
    spells src name x -> new_name e x -> D k = Some (DFun ts r) ->
    legal_params D src ((x, k) :: e) ps ts e1 ->
    legal_stmt D w src pl b e n a ((x, k) :: e)
| lg_namespace : forall pl b e n a t q r x k0 k e',
    n_type n = N_NAMESPACE -> n_token n = q :: t :: r -> spells src t x -> new_name e x ->
    D k0 = None -> legal_block D w src (in_block pl) [] ((x, k0) :: e) (n_child n) e' ->
    D k = Some (DSpace e') ->
    legal_stmt D w src pl b e n a ((x, k) :: e)
| lg_import : forall pl b e n a q t r x,
    n_type n = N_IMPORT -> n_child n = [] -> n_token n = q :: t :: r -> spells src t x -> name x ->
    w_module w x = true ->
    legal_stmt D w src pl b e n a e
| lg_idle : forall pl b e n a,
    n_type n = N_COMMENT \/ n_type n = N_NOOP \/ n_type n = N_UNKNOWN -> n_child n = [] ->
    legal_stmt D w src pl b e n a e
with legal_block (D : decls) (w : world) (src : text) : place -> list ntype -> env -> list node -> env -> Prop :=
| lb_nil : forall pl b e, legal_block D w src pl b e [] e
| lb_cons : forall pl b e n l e1 e2, legal_stmt D w src pl b e n l e1 ->
    legal_block D w src pl (n_type n :: b) e1 l e2 -> legal_block D w src pl b e (n :: l) e2.

(** The program keeps the rules. *)
Definition legal (w : world) (src : text) (tree : list node) : Prop :=
  exists D exits e, legal_block D w src (mkplace 0 None true exits) [] [] tree e.
