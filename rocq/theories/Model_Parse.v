(** Model of the parser, skull/parse/ast_node.c.

    A `Token *` is the list of the tokens from that token on, the null pointer is
    the empty list. Freeing of trees and running out of memory or stack are not
    modelled; every tree that is freed is unreachable afterwards. *)
From Coq Require Import List Arith NArith Bool Lia.
From Verif Require Import Base Model_Token.
Import ListNotations.
Open Scope list_scope.
Open Scope N_scope.

(** The integer values of TokenType, skull/parse/token.h:7-63. *)
Definition tnum (t : ttype) : N :=
  match t with
  | T_UNKNOWN => 0
  | T_IDENTIFIER => 1 | T_NEW_IDENTIFIER => 2 | T_DOT_IDENTIFIER => 3
  | T_KW_MUT => 4 | T_KW_RETURN => 5 | T_KW_UNREACHABLE => 6 | T_KW_IF => 7 | T_KW_ELIF => 8
  | T_KW_ELSE => 9 | T_KW_WHILE => 10 | T_KW_EXTERNAL => 11 | T_KW_EXPORT => 12
  | T_KW_NOOP => 13 | T_KW_BREAK => 14 | T_KW_CONTINUE => 15
  | T_KW_IMPORT => 16 | T_KW_NAMESPACE => 17
  | T_NEWLINE => 18 | T_COMMA => 19 | T_BRACKET_OPEN => 20 | T_BRACKET_CLOSE => 21
  | T_PAREN_OPEN => 22 | T_PAREN_CLOSE => 23
  | T_OPER_EQUAL => 24 | T_OPER_PLUS => 25 | T_OPER_DASH => 26 | T_OPER_STAR => 27
  | T_OPER_DIV => 28 | T_OPER_MOD => 29
  | T_OPER_AUTO_EQUAL => 30 | T_OPER_NOT => 31 | T_OPER_IS => 32 | T_OPER_ISNT => 33
  | T_OPER_AND => 34 | T_OPER_OR => 35
  | T_OPER_XOR => 36 | T_OPER_LESS_THAN => 37 | T_OPER_GTR_THAN => 38
  | T_OPER_LESS_THAN_EQ => 39
  | T_OPER_GTR_THAN_EQ => 40 | T_OPER_LSHIFT => 41 | T_OPER_RSHIFT => 42 | T_OPER_POW => 43
  | T_OPER_REF => 44
  | T_INT_CONST => 45 | T_FLOAT_CONST => 46 | T_BOOL_CONST => 47 | T_RUNE_CONST => 48
  | T_STR_CONST => 49
  | T_COMMENT => 50
  end.

(** `a == b` on TokenType (skull/parse/ast_node.c, all over; e.g. 99, 154). *)
Definition ttype_eqb (a b : ttype) : bool := tnum a =? tnum b.

(** The unary and binary operators of ExprType, skull/parse/ast_node.h:131-157. *)
Inductive unop := UNeg | UNot | URef | UDeref.
Inductive binop :=
| BAdd | BSub | BMult | BDiv | BMod | BLshift | BRshift | BPow | BIs | BIsnt
| BLess | BGtr | BLessEq | BGtrEq | BAnd | BOr | BXor.

(** AstNodeExpr, skull/parse/ast_node.h:162-187, as the parser fills it: `lhs.tok`,
    `lhs.func_call` (name, argument nodes with their first token, `num_values`) or
    `lhs.expr`, and `rhs`. None is a null pointer. `symbol`, `value`, `type` and
    `is_const_expr` are set by later phases and are not part of the tree here. The
    empty node behind the last argument is left out. *)
Inductive expr :=
| EVar (t : token)
| EConst (t : token)
| ECall (name : token) (args : list (list token * expr)) (num_values : N)
| EUn (o : unop) (rhs : option expr)
| EBin (o : binop) (lhs : option expr) (rhs : expr).

(** NodeType, skull/parse/ast_node.h:8-33. *)
Inductive ntype :=
| N_UNKNOWN | N_VAR_DEF | N_VAR_ASSIGN | N_FUNCTION_PROTO | N_EXPR | N_RETURN
| N_UNREACHABLE | N_IF | N_ELIF | N_ELSE | N_WHILE | N_IMPORT | N_NAMESPACE
| N_COMMENT | N_NOOP | N_BREAK | N_CONTINUE.

(** AstNodeFunctionParam, skull/parse/ast_node.h:98-103. `param_name` and `location`
    are kept as the token they are taken from. *)
Record param := mkparam { pm_type : list token; pm_name : token }.

(** The union in AstNode, skull/parse/ast_node.h:66-74, with AstNodeVarDef (80-87),
    AstNodeVarAssign (92-95) and AstNodeFunctionProto (108-121) without the symbols. *)
Inductive payload :=
| PNone
| PVarDef (name : list token) (e : expr) (is_implicit is_const is_exported : bool)
| PAssign (e : expr)
| PProto (name : token) (ret : list token) (num_params : N) (is_external is_export : bool)
    (params : list param)
| PExpr (e : expr).

(** AstNode, skull/parse/ast_node.h:54-75. `next` and `last` are the order of the
    node list, `child` is the list below (empty for a null pointer), `parent` is the
    place in the tree. *)
Inductive node := mknode {
  n_type : ntype;
  n_token : list token;
  n_token_end : list token;
  n_pay : payload;
  n_child : list node }.

(** The errors the parser reports (codes of skull/common/errors.h), with the token that the
    text names: `.tok` at skull/parse/ast_node.c:424, 595, 707, 785 and 855. It may be null. *)
Inductive perr :=
| P_UNEXPECTED_TOKEN (t : option token) | P_EOF_NO_BRACKET | P_MISSING_OPEN_BRAK | P_MISSING_CLOSING_PAREN
| P_IMPORT_IDENT | P_UNEXPECTED_CODE_BLOCK | P_EMPTY_BLOCK | P_INVALID_EXPR (t : option token)
| P_EXPECTED_COMMA | P_UNCLOSED_FUNC_CALL | P_ASSIGN_MISSING_EXPR | P_EXPECTED_EXPR (t : token)
| P_EXPECTED_NEWLINE | P_NO_DOUBLE_UNARY | P_UNEXPECTED_UNARY_EXPR
| P_MISSING_ASSIGNMENT | P_UNEXPECTED_COMMA.

(** One message pushed by fmt_message (skull/common/errors.c:114-119): code and
    location (None if the message has neither a token nor a location). *)
Record message := mkmsg { m_code : perr; m_loc : option location }.

(** Outcome of parser code with state S: a state and a value, undefined behaviour, or
    not enough fuel (excluded by a theorem). *)
Inductive out (S A : Type) : Type :=
| Ret : S -> A -> out S A
| Bad : out S A
| Fuel : out S A.
Arguments Ret {S A} _ _.
Arguments Bad {S A}.
Arguments Fuel {S A}.

(** `;` in the C code. *)
Definition obind {S A T B} (r : out S A) (f : S -> A -> out T B) : out T B :=
  match r with Ret s a => f s a | Bad => Bad | Fuel => Fuel end.

Notation "'let*' ( s , x ) := r 'in' k" := (obind r (fun s x => k))
  (at level 200, s name, x name, r at level 100, k at level 200).

(** The fields `token` and `err` of ParserCtx (skull/parse/ast_node.c:12-18) and the
    messages (latest first). *)
Record pst := mkpst { p_tok : list token; p_err : bool; p_msgs : list message }.

(** Assignments to `ctx->token` and `ctx->err`, FMT_ERROR. *)
Definition set_tok (s : pst) (ts : list token) : pst := mkpst ts (p_err s) (p_msgs s).
Definition set_err (s : pst) : pst := mkpst (p_tok s) true (p_msgs s).
(** FMT_ERROR, skull/common/errors.h:121-122. *)
Definition report (c : perr) (l : option location) (s : pst) : pst :=
  mkpst (p_tok s) (p_err s) (mkmsg c l :: p_msgs s).
(** FMT_ERROR followed by `ctx->err = true`, e.g. skull/parse/ast_node.c:707-709. *)
Definition fail (c : perr) (l : option location) (s : pst) : pst := set_err (report c l s).

(** Type of the token behind a possibly null pointer: `NOT_NULL(p)->type == ty`,
    skull/parse/ast_node.c:53. *)
Definition tok_is (ts : list token) (ty : ttype) : bool :=
  match ts with [] => false | t :: _ => ttype_eqb (t_type t) ty end.

(** is_identifier_like, skull/semantic/types.c:324-329. *)
Definition is_identifier_like (t : token) : bool :=
  ttype_eqb (t_type t) T_DOT_IDENTIFIER || ttype_eqb (t_type t) T_IDENTIFIER.

(** AST_TOKEN_CMP2, skull/parse/ast_node.c:55-57. The pointer is followed before
    anything is tested. *)
Definition token_cmp2 (ts : list token) (a b : ttype) : res bool :=
  match ts with
  | [] => UB
  | t :: r =>
      Ok (negb (ttype_eqb (t_type t) T_UNKNOWN) && ttype_eqb (t_type t) a && tok_is r b)
  end.

(** next_token, skull/parse/ast_node.c:1179-1181. *)
Definition next_token (s : pst) : out pst unit :=
  match p_tok s with [] => Bad | _ :: r => Ret (set_tok s r) tt end.

(** is_single_token_expr, skull/parse/ast_node.c:1087-1099. *)
Definition is_single_token_expr (ty : ttype) : bool :=
  match ty with
  | T_IDENTIFIER | T_DOT_IDENTIFIER | T_INT_CONST | T_FLOAT_CONST | T_BOOL_CONST
  | T_RUNE_CONST | T_STR_CONST => true
  | _ => false
  end.

(** get_potential_unary_oper, skull/parse/ast_node.c:738-746. *)
Definition get_potential_unary_oper (ty : ttype) : option unop :=
  match ty with
  | T_OPER_DASH => Some UNeg
  | T_OPER_STAR => Some UDeref
  | T_OPER_NOT => Some UNot
  | T_OPER_REF => Some URef
  | _ => None
  end.

(** token_type_to_binary_expr_type, skull/parse/ast_node.c:232-255: inl for a binary
    operator, inr for EXPR_NOT and EXPR_REF, None for EXPR_UNKNOWN. *)
Definition token_type_to_binary_expr_type (ty : ttype) : option (binop + unop) :=
  match ty with
  | T_OPER_PLUS => Some (inl BAdd)
  | T_OPER_DASH => Some (inl BSub)
  | T_OPER_STAR => Some (inl BMult)
  | T_OPER_DIV => Some (inl BDiv)
  | T_OPER_MOD => Some (inl BMod)
  | T_OPER_LSHIFT => Some (inl BLshift)
  | T_OPER_RSHIFT => Some (inl BRshift)
  | T_OPER_POW => Some (inl BPow)
  | T_OPER_IS => Some (inl BIs)
  | T_OPER_ISNT => Some (inl BIsnt)
  | T_OPER_LESS_THAN => Some (inl BLess)
  | T_OPER_GTR_THAN => Some (inl BGtr)
  | T_OPER_LESS_THAN_EQ => Some (inl BLessEq)
  | T_OPER_GTR_THAN_EQ => Some (inl BGtrEq)
  | T_OPER_AND => Some (inl BAnd)
  | T_OPER_XOR => Some (inl BXor)
  | T_OPER_OR => Some (inl BOr)
  | T_OPER_NOT => Some (inr UNot)
  | T_OPER_REF => Some (inr URef)
  | _ => None
  end.

(** oper_to_precedence, skull/parse/ast_node.c:801-837, on binary operators. *)
Definition bin_prec (o : binop) : N :=
  match o with
  | BPow => 2
  | BMult | BDiv | BMod => 4
  | BAdd | BSub => 5
  | BAnd | BOr | BXor | BLshift | BRshift => 6
  | BIs | BIsnt | BLess | BGtr | BLessEq | BGtrEq => 7
  end.

(** oper_to_precedence of `expr->oper`, skull/parse/ast_node.c:801-837. EXPR_REF has
    no case of its own. *)
Definition expr_prec (e : expr) : N :=
  match e with
  | EVar _ | EConst _ | ECall _ _ _ => 1
  | EUn URef _ => 0
  | EUn _ _ => 3
  | EBin o _ _ => bin_prec o
  end.

(** `last->rhs` and `last->rhs = current`, skull/parse/ast_node.c:683-684. An
    expression without a right side has strength 1 and is never rotated. *)
Definition get_rhs (e : expr) : option expr :=
  match e with EUn _ r => r | EBin _ _ r => Some r | _ => None end.
Definition set_rhs (e b : expr) : expr :=
  match e with EUn o _ => EUn o (Some b) | EBin o l _ => EBin o l b | _ => e end.

(** The rotation, skull/parse/ast_node.c:679-689, for the expression `top` and the
    new expression `top o r`. *)
Definition rotate (top : expr) (o : binop) (r : expr) : expr :=
  if bin_prec o <? expr_prec top
  then set_rhs top (EBin o (get_rhs top) r)
  else EBin o (Some top) r.

(** Arithmetic of `unsigned short`. *)
Definition w16 (n : N) : N := n mod 2 ^ 16.

(** Type of the parser of expressions, a parameter of the functions it is mutually
    recursive with. *)
Definition eparser := pst -> out pst (option expr).

(** parse_paren_expr, skull/parse/ast_node.c:839-863. *)
Definition parse_paren_expr (pe : eparser) (s : pst) : out pst (option expr) :=
  match p_tok s with
  | [] => Bad
  | old :: _ =>
      let* (s0, _) := next_token s in
      let* (s1, e) := pe s0 in
      match e with
      | None => Ret (fail (P_INVALID_EXPR (Some old)) (Some (t_loc old)) s1) None
      | Some e =>
          if tok_is (p_tok s1) T_PAREN_CLOSE
          then let* (s2, _) := next_token s1 in Ret s2 (Some e)
          else Ret (fail P_MISSING_CLOSING_PAREN (Some (t_loc old)) s1) None
      end
  end.

(** The loop of parse_func_call, skull/parse/ast_node.c:894-952, with the argument
    nodes so far (latest first) and `num_values`; None if it returned null. *)
Fixpoint call_loop (pe : eparser) (fuel : nat) (name : token)
    (args : list (list token * expr)) (n : N) (s : pst)
    : out pst (option (list (list token * expr) * N)) :=
  match fuel with
  | O => Fuel
  | S f =>
      match p_tok s with
      | [] => Ret (fail P_UNCLOSED_FUNC_CALL (Some (t_loc name)) s) None
      | t :: _ =>
          if ttype_eqb (t_type t) T_COMMA
          then Ret (fail P_UNEXPECTED_COMMA (Some (t_loc t)) s) None
          else
            let* (s1, e) := pe s in
            let args1 := match e with Some e => (p_tok s, e) :: args | None => args end in
            let n1 := match e with Some _ => w16 (n + 1) | None => n end in
            match p_tok s1 with
            | [] => Ret (fail P_MISSING_CLOSING_PAREN (Some (t_loc t)) s1) None
            | t1 :: r1 =>
                if ttype_eqb (t_type t1) T_NEWLINE
                then Ret (fail P_MISSING_CLOSING_PAREN (Some (t_loc t1)) s1) None
                else if ttype_eqb (t_type t1) T_PAREN_CLOSE
                then Ret s1 (Some (args1, n1))
                else if ttype_eqb (t_type t1) T_COMMA
                then call_loop pe f name args1 n1 (set_tok s1 r1)
                else Ret (fail P_EXPECTED_COMMA (Some (t_loc t1)) s1) None
            end
      end
  end.

(** parse_func_call, skull/parse/ast_node.c:884-966. *)
Definition parse_func_call (pe : eparser) (fuel : nat) (s : pst) : out pst (option expr) :=
  match p_tok s with
  | name :: _ :: r =>
      let* (s1, a) := call_loop pe fuel name [] 0 (set_tok s r) in
      match a with
      | None => Ret s1 None
      | Some (args, n) =>
          let* (s2, _) := next_token s1 in Ret s2 (Some (ECall name (rev args) n))
      end
  | _ => Bad
  end.

(** parse_single_token_expr, skull/parse/ast_node.c:868-877. *)
Definition parse_single_token_expr (s : pst) : out pst (option expr) :=
  match p_tok s with
  | [] => Bad
  | t :: _ =>
      let e := if is_identifier_like t then EVar t else EConst t in
      let* (s1, _) := next_token s in Ret s1 (Some e)
  end.

(** parse_root_expr, skull/parse/ast_node.c:752-766. *)
Definition parse_root_expr (pe : eparser) (fuel : nat) (s : pst) : out pst (option expr) :=
  match p_tok s with
  | [] => Bad
  | t :: r =>
      if ttype_eqb (t_type t) T_PAREN_OPEN then parse_paren_expr pe s
      else if is_identifier_like t && tok_is r T_PAREN_OPEN then parse_func_call pe fuel s
      else if is_single_token_expr (t_type t) then parse_single_token_expr s
      else Ret s None
  end.

(** parse_single_expr, skull/parse/ast_node.c:695-727. *)
Definition parse_single_expr (pe : eparser) (fuel : nat) (s : pst) : out pst (option expr) :=
  match p_tok s with
  | [] => Ret s None
  | last :: _ =>
      match get_potential_unary_oper (t_type last) with
      | None => parse_root_expr pe fuel s
      | Some o =>
          let* (s0, _) := next_token s in
          match p_tok s0 with
          | [] => Ret (fail (P_EXPECTED_EXPR last) (Some (t_loc last)) s0) None
          | t :: _ =>
              match get_potential_unary_oper (t_type t) with
              | Some _ => Ret (fail P_NO_DOUBLE_UNARY (Some (t_loc t)) s0) None
              | None =>
                  let* (s1, r) := parse_root_expr pe fuel s0 in Ret s1 (Some (EUn o r))
              end
          end
      end
  end.

(** parse_expr_rhs, skull/parse/ast_node.c:768-799: the operator and right side of
    the new expression, None if there is no new expression. *)
Definition parse_expr_rhs (pe : eparser) (fuel : nat) (s : pst)
    : out pst (option (binop * expr)) :=
  match p_tok s with
  | [] => Ret s None
  | t :: _ =>
      match token_type_to_binary_expr_type (t_type t) with
      | None => Ret s None
      | Some (inr _) => Ret (fail P_UNEXPECTED_UNARY_EXPR (Some (t_loc t)) s) None
      | Some (inl o) =>
          let* (s0, _) := next_token s in
          let* (s1, r) := parse_single_expr pe fuel s0 in
          match r with
          | None => Ret (fail (P_EXPECTED_EXPR t) (Some (t_loc t)) s1) None
          | Some r => Ret s1 (Some (o, r))
          end
      end
  end.

(** The loop of parse_expression, skull/parse/ast_node.c:670-692. *)
Fixpoint expr_loop (pe : eparser) (fuel : nat) (top : expr) (s : pst)
    : out pst (option expr) :=
  match fuel with
  | O => Fuel
  | S f =>
      let* (s1, x) := parse_expr_rhs pe f s in
      if p_err s1 then Ret s1 None
      else match x with
           | None => Ret s1 (Some top)
           | Some (o, r) => expr_loop pe f (rotate top o r) s1
           end
  end.

(** parse_expression, skull/parse/ast_node.c:661-693. If the first operand is
    missing the loop is not entered and the result is null. *)
Fixpoint parse_expression (fuel : nat) (s : pst) : out pst (option expr) :=
  match fuel with
  | O => Fuel
  | S f =>
      match p_tok s with
      | [] => Ret s None
      | _ :: _ =>
          let* (s1, h) := parse_single_expr (parse_expression f) f s in
          if p_err s1 then Ret s1 None
          else match h with
               | None => Ret s1 None
               | Some e => expr_loop (parse_expression f) f e s1
               end
      end
  end.

(** ParserCtx with the nodes: the filled nodes of the current list (latest first)
    and the child already given to the empty node the list ends with. Only the first
    node of a list is ever given a child before it is filled
    (skull/parse/ast_node.c:644-647). *)
Record nctx := mknctx { n_st : pst; n_done : list node; n_pend : list node }.

Definition with_st (c : nctx) (s : pst) : nctx := mknctx s (n_done c) (n_pend c).

(** push_ast_node, skull/parse/ast_node.c:971-987. What the callers store in the
    returned node afterwards is passed along; when an error comes in between the
    list is freed as a whole. `te` is `ctx->token` at the time of the push. *)
Definition push_ast_node (c : nctx) (s : pst) (tok te : list token) (ty : ntype)
    (p : payload) : nctx :=
  mknctx s (mknode ty tok te p (n_pend c) :: n_done c) [].

(** ParserResult, skull/parse/ast_node.c:47-51. *)
Inductive presult := RESULT_OK | RESULT_IGNORE | RESULT_ERROR.

(** parse_return, skull/parse/ast_node.c:83-91. *)
Definition parse_return (fuel : nat) (c : nctx) : out nctx unit :=
  let s := n_st c in
  let* (s0, _) := next_token s in
  let* (s1, e) := parse_expression fuel s0 in
  let p := match e with Some e => PExpr e | None => PNone end in
  Ret (push_ast_node c s1 (p_tok s) (p_tok s) N_RETURN p) tt.

(** is_potential_type, skull/parse/ast_node.c:189-201. *)
Fixpoint is_potential_type (ts : list token) : option (list token) :=
  match ts with
  | [] => None
  | t :: r =>
      if is_identifier_like t then Some ts
      else if ttype_eqb (t_type t) T_OPER_REF then is_potential_type r
      else None
  end.

(** is_explicit_type, skull/parse/ast_node.c:164-183: the tokens behind the type, or
    None for false (`ctx->token` is then unchanged). *)
Definition is_explicit_type (ts : list token) : option (list token) :=
  match ts with
  | t :: ((_ :: _) as r) =>
      if ttype_eqb (t_type t) T_NEW_IDENTIFIER
      then match is_potential_type r with
           | Some (_ :: after) => Some after
           | _ => None
           end
      else None
  | _ => None
  end.

(** The second half of parse_var_def, skull/parse/ast_node.c:134-161, from the node on;
    `te` is `ctx->token` at the push. `&ctx->token->location` of a null token is read by
    fmt_message (skull/common/errors.c:177-191). *)
Definition finish_var_def (fuel : nat) (c : nctx) (name : list token)
    (is_implicit is_const is_exported : bool) (te : list token) : out nctx presult :=
  let s := n_st c in
  match te with
  | [] => Bad
  | _ :: r1 =>
      let* (s1, e) := parse_expression fuel (set_tok s r1) in
      if p_err s1 then Ret (with_st c s1) RESULT_ERROR
      else match e with
           | None =>
               match p_tok s1 with
               | [] => Bad
               | b :: _ =>
                   Ret (with_st c (report P_ASSIGN_MISSING_EXPR (Some (t_loc b)) s1)) RESULT_ERROR
               end
           | Some e =>
               let c1 := push_ast_node c s1 (p_tok s) te N_VAR_DEF
                           (PVarDef name e is_implicit is_const is_exported) in
               match p_tok s1 with
               | [] => Ret c1 RESULT_OK
               | b :: _ =>
                   if ttype_eqb (t_type b) T_NEWLINE then Ret c1 RESULT_OK
                   else Ret (with_st c1 (report P_EXPECTED_NEWLINE (Some (t_loc b)) s1))
                          RESULT_ERROR
               end
           end
  end.

(** parse_var_def, skull/parse/ast_node.c:93-162. *)
Definition parse_var_def (fuel : nat) (c : nctx) : out nctx presult :=
  let s := n_st c in
  match p_tok s with
  | [] => Bad
  | t :: r =>
      let is_mut := ttype_eqb (t_type t) T_KW_MUT in
      let is_exported := negb is_mut && ttype_eqb (t_type t) T_KW_EXPORT in
      let name := if is_mut || is_exported then r else p_tok s in
      match name with
      | [] => Ret c RESULT_IGNORE
      | name_token :: after_name =>
          match is_explicit_type name with
          | Some [] =>
              Ret (with_st c (report P_MISSING_ASSIGNMENT (Some (t_loc name_token)) s))
                RESULT_ERROR
          | Some te => finish_var_def fuel c name false (negb is_mut) is_exported te
          | None =>
              match token_cmp2 name T_IDENTIFIER T_OPER_AUTO_EQUAL with
              | UB => Bad
              | Ok true => finish_var_def fuel c name true (negb is_mut) is_exported after_name
              | Ok false => Ret c RESULT_IGNORE
              end
          end
      end
  end.

(** parse_var_assign, skull/parse/ast_node.c:203-227. *)
Definition parse_var_assign (fuel : nat) (c : nctx) : out nctx presult :=
  let s := n_st c in
  match p_tok s with
  | [] => Bad
  | t :: te =>
      if is_identifier_like t && tok_is te T_OPER_EQUAL
      then
        let* (s0, _) := next_token (set_tok s te) in
        let* (s1, e) := parse_expression fuel s0 in
        match e with
        | None =>
            match p_tok s1 with
            | [] => Bad
            | b :: _ =>
                Ret (with_st c (report P_ASSIGN_MISSING_EXPR (Some (t_loc b)) s1)) RESULT_ERROR
            end
        | Some e => Ret (push_ast_node c s1 (p_tok s) te N_VAR_ASSIGN (PAssign e)) RESULT_OK
        end
      else Ret c RESULT_IGNORE
  end.

(** parse_function_proto_params, skull/parse/ast_node.c:383-410: the parameters and
    `ctx->token` at the end. *)
Fixpoint proto_params (fuel : nat) (ts : list token) (acc : list param)
    : option (list param * list token) :=
  match fuel with
  | O => None
  | S f =>
      match is_explicit_type ts with
      | None => Some (rev acc, ts)
      | Some [] => Some (rev acc, [])
      | Some (b :: after) =>
          let acc1 := match ts with
                      | name :: ty => mkparam ty name :: acc
                      | [] => acc
                      end in
          if ttype_eqb (t_type b) T_COMMA
          then proto_params f after acc1
          else Some (rev acc1, b :: after)
      end
  end.

(** The end of parse_function_proto, skull/parse/ast_node.c:349-380, with `ctx->token`
    at `te`. When `num_params` wraps around only that many parameters are copied. *)
Definition accept_proto (c : nctx) (name : token) (is_external is_export : bool)
    (params : list param) (ret te : list token) : out nctx presult :=
  let s := n_st c in
  let n := w16 (N.of_nat (length params)) in
  match te with
  | [] => Bad
  | _ :: r1 =>
      Ret (push_ast_node c (set_tok s r1) (p_tok s) te N_FUNCTION_PROTO
             (PProto name ret n is_external is_export (firstn (N.to_nat n) params)))
        RESULT_OK
  end.

(** parse_function_proto behind the parameters, skull/parse/ast_node.c:298-347, with
    `ctx->token` at `b` and `after` behind it. `ctx->token != last_token` (298) compares
    positions in one list, kept here as their distance from the end. *)
Definition finish_proto (c : nctx) (name : token) (is_external is_export : bool)
    (params : list param) (last_token : list token) (b : token) (after : list token)
    : out nctx presult :=
  let s := n_st c in
  let is_proto := negb (S (length after) =? length last_token)%nat in
  let ty := if is_external then T_NEWLINE else T_BRACKET_OPEN in
  match (if ttype_eqb (t_type b) T_PAREN_CLOSE then is_potential_type after else None) with
  | Some ((e :: after_ty) as tmp) =>
      if tok_is after_ty ty then accept_proto c name is_external is_export params after tmp
      else Ret (with_st c (report (if is_external then P_EXPECTED_NEWLINE
                                   else P_MISSING_OPEN_BRAK) (Some (t_loc e)) s)) RESULT_ERROR
  | _ =>
      if ttype_eqb (t_type b) T_PAREN_CLOSE && tok_is after ty
      then accept_proto c name is_external is_export params [] (b :: after)
      else if is_proto
      then Ret (with_st c (report P_EXPECTED_COMMA (Some (t_loc b)) s)) RESULT_ERROR
      else if is_external && (match after with [] => true | _ => false end)
      then Ret (with_st c (report P_EXPECTED_NEWLINE (Some (t_loc b)) s)) RESULT_ERROR
      else Ret c RESULT_IGNORE
  end.

(** parse_function_proto, skull/parse/ast_node.c:267-381. *)
Definition parse_function_proto (c : nctx) : out nctx presult :=
  let s := n_st c in
  match p_tok s with
  | [] => Bad
  | t :: r =>
      let is_external := ttype_eqb (t_type t) T_KW_EXTERNAL in
      let is_export := ttype_eqb (t_type t) T_KW_EXPORT in
      let ts := if is_external || is_export then r else p_tok s in
      match token_cmp2 ts T_IDENTIFIER T_PAREN_OPEN with
      | UB => Bad
      | Ok false => Ret c RESULT_IGNORE
      | Ok true =>
          match ts with
          | name :: paren :: last_token =>
              match proto_params (S (length last_token)) last_token [] with
              | None => Fuel
              | Some (_, []) =>
                  Ret (with_st c (report P_MISSING_CLOSING_PAREN (Some (t_loc paren)) s))
                    RESULT_ERROR
              | Some (params, b :: after) =>
                  finish_proto c name is_external is_export params last_token b after
              end
          | _ => Bad
          end
      end
  end.

(** parse_condition with the node types of its callers, skull/parse/ast_node.c:412-448. *)
Definition parse_condition (fuel : nat) (ty : ntype) (c : nctx) : out nctx unit :=
  let s := n_st c in
  match p_tok s with
  | [] | [_] => Ret (with_st c (set_err s)) tt
  | _ :: _ :: _ =>
      let* (s0, _) := next_token s in
      let* (s1, e) := parse_expression fuel s0 in
      let bad := Ret (with_st c (fail (P_INVALID_EXPR (hd_error (p_tok s1)))
                                   (option_map t_loc (hd_error (p_tok s1))) s1)) tt in
      match e with
      | None => bad
      | Some e =>
          if p_err s1 then bad
          else Ret (push_ast_node c s1 (p_tok s) (p_tok s) ty (PExpr e)) tt
      end
  end.

(** parse_else, parse_unreachable, parse_comment, parse_noop, parse_break and
    parse_continue, skull/parse/ast_node.c:441-444 and 498-521. *)
Definition parse_simple (ty : ntype) (c : nctx) : out nctx unit :=
  let s := n_st c in
  let* (s0, _) := next_token s in
  Ret (push_ast_node c s0 (p_tok s) (p_tok s) ty PNone) tt.

(** parse_namespace, skull/parse/ast_node.c:450-459. *)
Definition parse_namespace (c : nctx) : out nctx unit :=
  let s := n_st c in
  match p_tok s with
  | _ :: _ :: r => Ret (push_ast_node c (set_tok s r) (p_tok s) r N_NAMESPACE PNone) tt
  | _ => Ret (with_st c (set_err s)) tt
  end.

(** parse_import, skull/parse/ast_node.c:523-538. *)
Definition parse_import (c : nctx) : out nctx unit :=
  let s := n_st c in
  match p_tok s with
  | [] => Bad
  | t :: r =>
      match r with
      | n :: r1 =>
          if ttype_eqb (t_type n) T_IDENTIFIER
          then Ret (push_ast_node c (set_tok s r1) (p_tok s) (p_tok s) N_IMPORT PNone) tt
          else Ret (with_st c (fail P_IMPORT_IDENT (Some (t_loc n)) s)) tt
      | [] => Ret (with_st c (fail P_IMPORT_IDENT (Some (t_loc t)) s)) tt
      end
  end.

(** parse_ast_sub_tree_, skull/parse/ast_node.c:613-654. `sub` is parse_ast_tree_ one
    level deeper. *)
Definition parse_ast_sub_tree_ (sub : pst -> out pst (option (list node))) (c : nctx)
    : out nctx unit :=
  let s := n_st c in
  match p_tok s with
  | [] => Bad
  | t :: _ =>
      match n_done c with
      | mknode _ _ _ _ (_ :: _) :: _ =>
          Ret (with_st c (fail P_UNEXPECTED_CODE_BLOCK (Some (t_loc t)) s)) tt
      | _ =>
          let* (s0, _) := next_token s in
          let* (s1, child) := sub (mkpst (p_tok s0) false (p_msgs s0)) in
          let s2 := mkpst (p_tok s1) (p_err s) (p_msgs s1) in
          match child with
          | Some ((mknode _ tok _ _ _ :: _) as child) =>
              if p_err s1 then Ret (with_st c (set_err s2)) tt
              else match tok with
                   | [] =>
                       match p_tok s2 with
                       | [] => Bad
                       | b :: _ => Ret (with_st c (fail P_EMPTY_BLOCK (Some (t_loc b)) s2)) tt
                       end
                   | _ :: _ =>
                       let* (s3, _) := next_token s2 in
                       match n_done c with
                       | [] => Ret (mknctx s3 [] child) tt
                       | mknode ty a b p _ :: d =>
                           Ret (mknctx s3 (mknode ty a b p child :: d) (n_pend c)) tt
                       end
                   end
          | _ => Ret (with_st c (set_err s2)) tt
          end
      end
  end.

(** parse_ast_node, skull/parse/ast_node.c:545-608. *)
Definition parse_ast_node (sub : pst -> out pst (option (list node))) (fuel indent : nat)
    (c : nctx) : out nctx bool :=
  let s := n_st c in
  let cont (r : out nctx unit) : out nctx bool := let* (c1, _) := r in Ret c1 false in
  match p_tok s with
  | [] => Bad
  | t :: _ =>
      match t_type t with
      | T_BRACKET_CLOSE =>
          match indent with
          | O => Ret (with_st c (fail P_MISSING_OPEN_BRAK (Some (t_loc t)) s)) true
          | S _ => Ret c true
          end
      | T_BRACKET_OPEN => cont (parse_ast_sub_tree_ sub c)
      | T_NEWLINE | T_COMMA => let* (s1, _) := next_token s in Ret (with_st c s1) false
      | T_KW_RETURN => cont (parse_return fuel c)
      | T_KW_IF => cont (parse_condition fuel N_IF c)
      | T_KW_ELIF => cont (parse_condition fuel N_ELIF c)
      | T_KW_ELSE => cont (parse_simple N_ELSE c)
      | T_KW_WHILE => cont (parse_condition fuel N_WHILE c)
      | T_KW_NAMESPACE => cont (parse_namespace c)
      | T_KW_UNREACHABLE => cont (parse_simple N_UNREACHABLE c)
      | T_COMMENT => cont (parse_simple N_COMMENT c)
      | T_KW_NOOP => cont (parse_simple N_NOOP c)
      | T_KW_BREAK => cont (parse_simple N_BREAK c)
      | T_KW_CONTINUE => cont (parse_simple N_CONTINUE c)
      | T_KW_IMPORT => cont (parse_import c)
      | _ =>
          let* (c1, r1) := parse_function_proto c in
          let* (c2, r2) := match r1 with
                           | RESULT_IGNORE => parse_var_def fuel c1 | _ => Ret c1 r1 end in
          let* (c3, r3) := match r2 with
                           | RESULT_IGNORE => parse_var_assign fuel c2 | _ => Ret c2 r2 end in
          let* (c4, r4) :=
            match r3 with
            | RESULT_IGNORE =>
                let last := p_tok (n_st c3) in
                let* (s4, e) := parse_expression fuel (n_st c3) in
                match e with
                | Some e =>
                    Ret (push_ast_node c3 s4 last (p_tok s4) N_EXPR (PExpr e)) RESULT_IGNORE
                | None =>
                    if p_err s4 then Ret (with_st c3 s4) RESULT_ERROR
                    else Ret (with_st c3
                                (report (P_UNEXPECTED_TOKEN (hd_error (p_tok s4)))
                                   (option_map t_loc (hd_error (p_tok s4))) s4)) RESULT_ERROR
                end
            | _ => Ret c3 r3
            end in
          match r4 with
          | RESULT_ERROR => Ret (with_st c4 (set_err (n_st c4))) false
          | _ => Ret c4 false
          end
      end
  end.

(** The loop of parse_ast_tree_, skull/parse/ast_node.c:470-474. *)
Fixpoint tree_loop (sub : pst -> out pst (option (list node))) (fuel indent : nat)
    (c : nctx) : out nctx unit :=
  match fuel with
  | O => Fuel
  | S f =>
      match p_tok (n_st c) with
      | [] => Ret c tt
      | _ :: _ =>
          let* (c1, done) := parse_ast_node sub (S f) indent c in
          if done || p_err (n_st c1) then Ret c1 tt else tree_loop sub f indent c1
      end
  end.

(** parse_ast_tree_, skull/parse/ast_node.c:466-496. `indent` does not wrap around. *)
Fixpoint parse_ast_tree_ (fuel indent : nat) (s : pst) : out pst (option (list node)) :=
  match fuel with
  | O => Fuel
  | S f =>
      let* (c, _) := tree_loop (parse_ast_tree_ f (S indent)) f indent (mknctx s [] []) in
      if p_err (n_st c) then Ret (n_st c) None
      else
        match p_tok (n_st c), indent with
        | [], S _ => Ret (fail P_EOF_NO_BRACKET None (n_st c)) None
        | _, _ =>
            Ret (n_st c)
              (Some (match n_done c with
                     | [] => [mknode N_UNKNOWN [] [] PNone (n_pend c)]
                     | _ :: _ => rev (n_done c)
                     end))
        end
  end.

(** The pointer stored at 69-73 of parse_ast_tree. *)
Definition set_head_token (head : list token) (tree : list node) : list node :=
  match tree with
  | mknode ty [] te p ch :: r => mknode ty head te p ch :: r
  | _ => tree
  end.

(** parse_ast_tree, skull/parse/ast_node.c:62-81: the tree (None if rejected) and the
    messages in the order of reporting. *)
Definition parse_ast_tree (ts : list token) : out (list message) (option (list node)) :=
  let* (s, tree) := parse_ast_tree_ (S (S (length ts))) 0 (mkpst ts false []) in
  Ret (rev (p_msgs s))
    (if p_err s then None else option_map (set_head_token ts) tree).
