(** Vocabulary for the properties of the parser. *)
From Coq Require Import List Arith NArith Bool Ascii String.
From Verif Require Import Base Model_Token Model_Classify Model_Parse.
Import ListNotations.
Open Scope list_scope.
Open Scope N_scope.

(** The tokens of a source text, for examples. *)
Definition tokens_of (src : text) : list token :=
  match tokenize false src with
  | Tokens _ ts => match classify_tokens src ts with Ok l => l | UB => [] end
  | _ => []
  end.

(** A source line with its line end, for examples. *)
Definition line (s : string) : text := u s ++ [10].

(** * Reading a tree back *)

(** What is left of a token once layout is gone: operands and words stay themselves,
    operators are reduced to their kind. *)
Inductive sym := Word (t : token) | Oper (ty : ttype).

Definition layout (ty : ttype) : bool :=
  match ty with
  | T_NEWLINE | T_COMMA | T_BRACKET_OPEN | T_BRACKET_CLOSE | T_PAREN_OPEN | T_PAREN_CLOSE => true
  | _ => false
  end.

Definition oper_token (ty : ttype) : bool :=
  match ty with
  | T_OPER_PLUS | T_OPER_DASH | T_OPER_STAR | T_OPER_DIV | T_OPER_MOD | T_OPER_NOT | T_OPER_IS
  | T_OPER_ISNT | T_OPER_AND | T_OPER_OR | T_OPER_XOR | T_OPER_LESS_THAN | T_OPER_GTR_THAN
  | T_OPER_LESS_THAN_EQ | T_OPER_GTR_THAN_EQ | T_OPER_LSHIFT | T_OPER_RSHIFT | T_OPER_POW
  | T_OPER_REF => true
  | _ => false
  end.

Definition sym_of (t : token) : list sym :=
  if layout (t_type t) then []
  else if oper_token (t_type t) then [Oper (t_type t)]
  else [Word t].

Definition syms (ts : list token) : list sym := flat_map sym_of ts.

(** How the operators are written. *)
Definition bin_token (o : binop) : ttype :=
  match o with
  | BAdd => T_OPER_PLUS | BSub => T_OPER_DASH | BMult => T_OPER_STAR | BDiv => T_OPER_DIV
  | BMod => T_OPER_MOD | BLshift => T_OPER_LSHIFT | BRshift => T_OPER_RSHIFT
  | BPow => T_OPER_POW | BIs => T_OPER_IS | BIsnt => T_OPER_ISNT | BLess => T_OPER_LESS_THAN
  | BGtr => T_OPER_GTR_THAN | BLessEq => T_OPER_LESS_THAN_EQ | BGtrEq => T_OPER_GTR_THAN_EQ
  | BAnd => T_OPER_AND | BOr => T_OPER_OR | BXor => T_OPER_XOR
  end.
Definition un_token (o : unop) : ttype :=
  match o with
  | UNeg => T_OPER_DASH | UNot => T_OPER_NOT | URef => T_OPER_REF | UDeref => T_OPER_STAR
  end.

(** An expression read from left to right. *)
Fixpoint yield (e : expr) : list sym :=
  match e with
  | EVar t | EConst t => [Word t]
  | ECall name args _ => Word name :: flat_map (fun a => yield (snd a)) args
  | EUn o r => Oper (un_token o) :: match r with Some r => yield r | None => [] end
  | EBin o l r =>
      (match l with Some l => yield l | None => [] end) ++ Oper (bin_token o) :: yield r
  end.

(** What an expression is made of. *)
Definition expression_token (ty : ttype) : Prop :=
  oper_token ty = true \/
  In ty [T_IDENTIFIER; T_DOT_IDENTIFIER; T_INT_CONST; T_FLOAT_CONST; T_BOOL_CONST; T_RUNE_CONST;
         T_STR_CONST; T_PAREN_OPEN; T_PAREN_CLOSE; T_COMMA].

(** Tokens from `a` through the first token of its suffix `b`. *)
Definition through (a b : list token) : list token := firstn (S (List.length a - List.length b)) a.

Definition yield_opt (p : payload) : list sym :=
  match p with PExpr e | PAssign e | PVarDef _ e _ _ _ => yield e | _ => [] end.

(** A node read back: its own tokens and its expression, then its block. *)
Definition own_syms (ty : ntype) (tok te : list token) (p : payload) : list sym :=
  (match ty with
   | N_UNKNOWN | N_EXPR => []
   | N_VAR_DEF | N_VAR_ASSIGN | N_FUNCTION_PROTO => syms (through tok te)
   | N_IMPORT | N_NAMESPACE => syms (firstn 2 tok)
   | _ => syms (firstn 1 tok)
   end) ++ yield_opt p.
Fixpoint node_syms (n : node) : list sym :=
  match n with
  | mknode ty tok te p ch => own_syms ty tok te p ++ flat_map node_syms ch
  end.

(** No block stands where a list of statements begins: behind the start of the program
    or behind another opening bracket. `fresh` tells that nothing but line ends and
    commas came since then. *)
Fixpoint blocks_follow (fresh : bool) (ts : list token) : Prop :=
  match ts with
  | [] => True
  | t :: r =>
      match t_type t with
      | T_NEWLINE | T_COMMA => blocks_follow fresh r
      | T_BRACKET_OPEN => fresh = false /\ blocks_follow true r
      | _ => blocks_follow false r
      end
  end.

(** * The end of a program *)

(** `name: & ... & type` *)
Inductive bare_declaration : list token -> Prop :=
| bd_name : forall t r, t_type t = T_NEW_IDENTIFIER -> bare_type r -> bare_declaration (t :: r)
with bare_type : list token -> Prop :=
| bt_name : forall t, t_type t = T_IDENTIFIER \/ t_type t = T_DOT_IDENTIFIER -> bare_type [t]
| bt_ref : forall t r, t_type t = T_OPER_REF -> bare_type r -> bare_type (t :: r).

(** The program ends with a line end, and what is in front of that is not a
    declaration without a value. *)
Definition ends_cleanly (ts : list token) : Prop :=
  exists a nl, ts = a ++ [nl] /\ t_type nl = T_NEWLINE /\
    forall b d, a = b ++ d -> ~ bare_declaration d.

(** Each operator that can be a unary one is followed by something that can begin an
    operand. *)
Definition starts_operand (ty : ttype) : bool :=
  match ty with
  | T_IDENTIFIER | T_DOT_IDENTIFIER | T_INT_CONST | T_FLOAT_CONST | T_BOOL_CONST | T_RUNE_CONST
  | T_STR_CONST | T_PAREN_OPEN => true
  | _ => false
  end.
Definition unary_token (ty : ttype) : Prop := exists o, ty = un_token o.
Fixpoint unary_has_operand (ts : list token) : Prop :=
  match ts with
  | [] => True
  | t :: r =>
      (unary_token (t_type t) ->
       exists x r', r = x :: r' /\ (starts_operand (t_type x) = true \/ unary_token (t_type x))) /\
      unary_has_operand r
  end.

(** All operands are there. *)
Inductive complete : expr -> Prop :=
| cm_var : forall t, complete (EVar t)
| cm_const : forall t, complete (EConst t)
| cm_call : forall name args n, (forall p e, In (p, e) args -> complete e) ->
    complete (ECall name args n)
| cm_un : forall o e, complete e -> complete (EUn o (Some e))
| cm_bin : forall o l r, complete l -> complete r -> complete (EBin o (Some l) r).

(** The nodes of a tree and the expressions they hold. *)
Inductive in_tree (n : node) : list node -> Prop :=
| it_here : forall l, In n l -> in_tree n l
| it_below : forall m l, In m l -> in_tree n (n_child m) -> in_tree n l.

Definition node_expr (n : node) : option expr :=
  match n_pay n with PVarDef _ e _ _ _ | PAssign e | PExpr e => Some e | _ => None end.

(** What the parts of an expression record: operands are names or literals, a call has a
    name and counts its arguments in 16 bits, and all tokens come from ts. *)
Inductive shaped (ts : list token) : expr -> Prop :=
| sh_var : forall t, In t ts -> t_type t = T_IDENTIFIER \/ t_type t = T_DOT_IDENTIFIER -> shaped ts (EVar t)
| sh_const : forall t, In t ts ->
    In (t_type t) [T_INT_CONST; T_FLOAT_CONST; T_BOOL_CONST; T_RUNE_CONST; T_STR_CONST] ->
    shaped ts (EConst t)
| sh_call : forall name args n, In name ts ->
    t_type name = T_IDENTIFIER \/ t_type name = T_DOT_IDENTIFIER ->
    n = N.of_nat (List.length args) mod 2 ^ 16 ->
    (forall p a, In (p, a) args -> exists t r, p = t :: r /\ In t ts) ->
    (forall p a, In (p, a) args -> shaped ts a) -> shaped ts (ECall name args n)
| sh_un : forall o r, (forall a, r = Some a -> shaped ts a) -> shaped ts (EUn o r)
| sh_bin : forall o l r, (forall a, l = Some a -> shaped ts a) -> shaped ts r -> shaped ts (EBin o l r).

(** * What the nodes record *)

(** Names, dotted or not. *)
Definition name_like (ty : ttype) : Prop := ty = T_IDENTIFIER \/ ty = T_DOT_IDENTIFIER.

(** `name: type, ..., name: type` in front of `rest`; a comma may end the list. *)
Inductive params_written : list token -> list param -> list token -> Prop :=
| pw_none : forall rest, params_written rest [] rest
| pw_last : forall x ty rest, t_type x = T_NEW_IDENTIFIER -> bare_type ty ->
    params_written (x :: ty ++ rest) [mkparam (ty ++ rest) x] rest
| pw_more : forall x ty comma more ps rest, t_type x = T_NEW_IDENTIFIER -> bare_type ty ->
    t_type comma = T_COMMA -> params_written more ps rest ->
    params_written (x :: ty ++ comma :: more) (mkparam (ty ++ comma :: more) x :: ps) rest.

(** The modifier words in front of a declaration: none or one. *)
Definition modifier (mods : list token) (ty : ttype) (there : bool) : Prop :=
  there = true <-> exists m, mods = [m] /\ t_type m = ty.
Definition modifiers (mods : list token) (allowed : list ttype) : Prop :=
  mods = [] \/ exists m, mods = [m] /\ In (t_type m) allowed.

(** A variable definition: `name := value` or `name: type ? value` where ? is one token. *)
Definition definition_written (tok te name : list token) (implicit const exported : bool) : Prop :=
  exists mods, tok = mods ++ name /\ modifiers mods [T_KW_MUT; T_KW_EXPORT] /\
    modifier mods T_KW_MUT (negb const) /\ modifier mods T_KW_EXPORT exported /\
    match implicit with
    | true => exists x q r, name = x :: q :: r /\ te = q :: r /\
        t_type x = T_IDENTIFIER /\ t_type q = T_OPER_AUTO_EQUAL
    | false => exists x ty q r, name = x :: ty ++ q :: r /\ te = q :: r /\
        t_type x = T_NEW_IDENTIFIER /\ bare_type ty
    end.

(** A function head: `name(parameters) type` in front of `{` or, for an external
    function, of the line end. *)
Definition head_written (tok te : list token) (name : token) (ret : list token) (num : N)
    (ext exp : bool) (params : list param) : Prop :=
  exists mods po inner pc after all,
    tok = mods ++ name :: po :: inner /\ modifiers mods [T_KW_EXTERNAL; T_KW_EXPORT] /\
    modifier mods T_KW_EXTERNAL ext /\ modifier mods T_KW_EXPORT exp /\
    t_type name = T_IDENTIFIER /\ t_type po = T_PAREN_OPEN /\
    params_written inner all (pc :: after) /\ t_type pc = T_PAREN_CLOSE /\
    num = N.of_nat (List.length all) mod 2 ^ 16 /\ params = firstn (N.to_nat num) all /\
    exists stop rest, t_type stop = (if ext then T_NEWLINE else T_BRACKET_OPEN) /\
      ((ret = [] /\ after = stop :: rest /\ te = pc :: after) \/
       (exists ty last, ret = after /\ after = ty ++ last :: stop :: rest /\
          bare_type (ty ++ [last]) /\ te = last :: stop :: rest)).

(** The keyword a statement begins with. *)
Definition keyword (ty : ntype) (k : ttype) : Prop :=
  In (ty, k) [(N_RETURN, T_KW_RETURN); (N_IF, T_KW_IF); (N_ELIF, T_KW_ELIF); (N_ELSE, T_KW_ELSE);
              (N_WHILE, T_KW_WHILE); (N_IMPORT, T_KW_IMPORT); (N_NAMESPACE, T_KW_NAMESPACE);
              (N_UNREACHABLE, T_KW_UNREACHABLE); (N_COMMENT, T_COMMENT); (N_NOOP, T_KW_NOOP);
              (N_BREAK, T_KW_BREAK); (N_CONTINUE, T_KW_CONTINUE)].
Definition begins (tok : list token) (ty : ntype) : Prop :=
  exists t r, tok = t :: r /\ keyword ty (t_type t).

(** What a node says is what is written at its token. *)
Definition written (n : node) : Prop :=
  match n_type n with
  | N_UNKNOWN => n_pay n = PNone
  | N_VAR_DEF => exists name e i c x, n_pay n = PVarDef name e i c x /\
      definition_written (n_token n) (n_token_end n) name i c x
  | N_VAR_ASSIGN => exists e x q r, n_pay n = PAssign e /\ n_token n = x :: q :: r /\
      name_like (t_type x) /\ t_type q = T_OPER_EQUAL
  | N_FUNCTION_PROTO => exists name ret k ext exp ps, n_pay n = PProto name ret k ext exp ps /\
      head_written (n_token n) (n_token_end n) name ret k ext exp ps
  | N_EXPR => exists e, n_pay n = PExpr e
  | N_IF | N_ELIF | N_WHILE => begins (n_token n) (n_type n) /\ exists e, n_pay n = PExpr e
  | N_RETURN => begins (n_token n) N_RETURN /\ (n_pay n = PNone \/ exists e, n_pay n = PExpr e)
  | N_IMPORT => begins (n_token n) N_IMPORT /\ n_pay n = PNone /\
      exists t x r, n_token n = t :: x :: r /\ t_type x = T_IDENTIFIER
  | N_NAMESPACE => begins (n_token n) N_NAMESPACE /\ n_pay n = PNone /\
      (2 <= List.length (n_token n))%nat
  | ty => begins (n_token n) ty /\ n_pay n = PNone
  end.

(** If the text of the message names a token, then it is this one; a missing closing bracket is
    no message about a token. *)
Definition tells (c : perr) (t : token) : Prop :=
  match c with
  | P_UNEXPECTED_TOKEN o | P_INVALID_EXPR o => o = Some t
  | P_EXPECTED_EXPR q => q = t
  | P_EOF_NO_BRACKET => False
  | _ => True
  end.

(** What a message points at: a token of the program, the one its text names if it names one;
    or the end of the program. *)
Definition points_into (ts : list token) (m : message) : Prop :=
  m = mkmsg P_EOF_NO_BRACKET None \/ m = mkmsg (P_INVALID_EXPR None) None \/
  exists t, In t ts /\ m_loc m = Some (t_loc t) /\ tells (m_code m) t.

(** The program is accepted as one return statement with the expression e. *)
Definition returns (ts : list token) (e : expr) : Prop :=
  parse_ast_tree ts = Ret [] (Some [mknode N_RETURN ts ts (PExpr e) []]).

(** The program ends with a word that wants something behind it. *)
Definition quiet_end (ts : list token) : Prop :=
  exists a t, ts = a ++ [t] /\ In (t_type t) [T_KW_IF; T_KW_ELIF; T_KW_WHILE; T_KW_NAMESPACE].

(** * Grouping *)

(** Source expressions with their parentheses. *)
Inductive cst :=
| CLeaf (t : token)
| CCall (name : token) (args : list cst)
| CParen (c : cst)
| CUn (o : unop) (c : cst)
| CBin (o : binop) (l r : cst).

Definition operand_type (ty : ttype) : Prop :=
  In ty [T_IDENTIFIER; T_DOT_IDENTIFIER; T_INT_CONST; T_FLOAT_CONST; T_BOOL_CONST;
         T_RUNE_CONST; T_STR_CONST].

(** The tokens of a source expression. *)
Inductive prints : cst -> list token -> Prop :=
| pr_leaf : forall t, operand_type (t_type t) -> prints (CLeaf t) [t]
| pr_call : forall t po pc args ts, name_like (t_type t) -> t_type po = T_PAREN_OPEN ->
    t_type pc = T_PAREN_CLOSE -> prints_args args ts ->
    prints (CCall t args) (t :: po :: ts ++ [pc])
| pr_paren : forall po pc c ts, t_type po = T_PAREN_OPEN -> t_type pc = T_PAREN_CLOSE ->
    prints c ts -> prints (CParen c) (po :: ts ++ [pc])
| pr_un : forall t o c ts, t_type t = un_token o -> prints c ts -> prints (CUn o c) (t :: ts)
| pr_bin : forall t o l r lts rts, t_type t = bin_token o -> prints l lts -> prints r rts ->
    prints (CBin o l r) (lts ++ t :: rts)
with prints_args : list cst -> list token -> Prop :=
| pa_nil : prints_args [] []
| pa_one : forall c ts, prints c ts -> prints_args [c] ts
| pa_more : forall c d cs ts t us, prints c ts -> t_type t = T_COMMA ->
    prints_args (d :: cs) us -> prints_args (c :: d :: cs) (ts ++ t :: us).

(** The tree of a source expression: the same without the parentheses. *)
Inductive same : expr -> cst -> Prop :=
| sm_var : forall t, name_like (t_type t) -> same (EVar t) (CLeaf t)
| sm_const : forall t, ~ name_like (t_type t) -> same (EConst t) (CLeaf t)
| sm_call : forall t args cs n, n = N.of_nat (List.length cs) mod 2 ^ 16 ->
    same_args args cs -> same (ECall t args n) (CCall t cs)
| sm_paren : forall e c, same e c -> same e (CParen c)
| sm_un : forall o e c, same e c -> same (EUn o (Some e)) (CUn o c)
| sm_bin : forall o l r cl cr, same l cl -> same r cr ->
    same (EBin o (Some l) r) (CBin o cl cr)
with same_args : list (list token * expr) -> list cst -> Prop :=
| sa_nil : same_args [] []
| sa_cons : forall p e c args cs, same e c -> same_args args cs ->
    same_args ((p, e) :: args) (c :: cs).

(** No unary operator directly behind another one. *)
Fixpoint starts_unary (c : cst) : bool :=
  match c with CUn _ _ => true | CBin _ l _ => starts_unary l | _ => false end.
Inductive single_unary : cst -> Prop :=
| su_leaf : forall t, single_unary (CLeaf t)
| su_call : forall t args, Forall single_unary args -> single_unary (CCall t args)
| su_paren : forall c, single_unary c -> single_unary (CParen c)
| su_un : forall o c, starts_unary c = false -> single_unary c -> single_unary (CUn o c)
| su_bin : forall o l r, single_unary l -> single_unary r -> single_unary (CBin o l r).

(** How loosely an operator binds; operands bind tightest (0), unary operators are
    between power and multiplication. *)
Definition loose (o : binop) : nat :=
  match o with
  | BPow => 1
  | BMult | BDiv | BMod => 3
  | BAdd | BSub => 4
  | BAnd | BOr | BXor | BLshift | BRshift => 5
  | BIs | BIsnt | BLess | BGtr | BLessEq | BGtrEq => 6
  end%nat.
Definition level (c : cst) : nat :=
  match c with CBin o _ _ => loose o | CUn _ _ => 2%nat | _ => 0%nat end.

(** The grouping of a source expression follows the table: the left side of an operator
    binds at least as tightly as the operator, the right side more tightly. *)
Inductive grouped : cst -> Prop :=
| g_leaf : forall t, grouped (CLeaf t)
| g_call : forall t args, Forall grouped args -> grouped (CCall t args)
| g_paren : forall c, grouped c -> grouped (CParen c)
| g_un : forall o c, (level c < 2)%nat -> grouped c -> grouped (CUn o c)
| g_bin : forall o l r, (level l <= loose o)%nat -> (level r < loose o)%nat ->
    grouped l -> grouped r -> grouped (CBin o l r).

(** The looseness of an expression that has lost its parentheses. *)
Fixpoint bare_level (c : cst) : nat :=
  match c with CParen c => bare_level c | CUn URef _ => 0%nat | c => level c end.

(** One operand, possibly with a unary operator. *)
Definition one_operand (c : cst) : Prop :=
  match c with CBin _ _ _ | CUn _ (CBin _ _ _) | CUn _ (CUn _ _) => False | _ => True end.
(** Operators one after the other, grouped to the left only. *)
Fixpoint flat (c : cst) : Prop :=
  match c with CBin _ l r => flat l /\ one_operand r | _ => one_operand c end.

(** The source expressions the parser groups right: a right operand has no operator in
    its own right operand, and a parenthesised operand at the very start is not followed
    by an operator that binds tighter than what is inside the parentheses. *)
Inductive plain : cst -> Prop :=
| pl_unit : forall c, one_operand c -> inside c -> plain c
| pl_power : forall o c, o <> URef -> flat c -> inside c -> plain (CUn o c)
| pl_bin : forall o l r, plain l -> flat r -> inside r ->
    (forall c, l = CParen c -> (bare_level c <= loose o)%nat) -> plain (CBin o l r)
(** The same inside the parentheses and argument lists of an expression. *)
with inside : cst -> Prop :=
| in_leaf : forall t, inside (CLeaf t)
| in_call : forall t args, Forall plain args -> inside (CCall t args)
| in_paren : forall c, plain c -> inside (CParen c)
| in_un : forall o c, inside c -> inside (CUn o c)
| in_bin : forall o l r, inside l -> inside r -> inside (CBin o l r).

(** What may stand behind an expression: nothing, or something that is neither an
    operator nor an opening parenthesis. *)
Definition stops (ts : list token) : Prop :=
  match ts with
  | [] => True
  | t :: _ => oper_token (t_type t) = false /\ t_type t <> T_PAREN_OPEN
  end.
