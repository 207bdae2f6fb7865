(** Where instructions come from: the statements that can be reached, and the blocks around them. *)
From Coq Require Import List Arith NArith Bool.
From Verif Require Import Base Model_Token Model_Parse Model_Sem Model_Where.
Import ListNotations.
Open Scope list_scope.

Section Where.
Variable ys : list symbol.

(** Statements that open a scope: blocks, and functions that are defined here. *)
Inductive opens : tnode -> option nat -> Prop :=
| op_block : forall ty tok p c, In ty [N_IF; N_ELIF; N_ELSE; N_WHILE; N_NAMESPACE] -> opens (mktnode ty tok p c) None
| op_fun : forall tok k ks c, (forall y f, nth_error ys k = Some y -> y_kind y = KFunc f -> f_external f = false) ->
    opens (mktnode N_FUNCTION_PROTO tok (XProto k ks) c) (Some k).
Definition jump (n : tnode) : Prop := In (tn_type n) [N_RETURN; N_UNREACHABLE; N_BREAK; N_CONTINUE].

(** [reached l path m]: [m] is a statement in [l], inside of the statements [path], the outermost
    first, and not behind a jump. Each of [path] comes with the function that it is, if it is one. *)
Inductive reached : list tnode -> list (tnode * option nat) -> tnode -> Prop :=
| re_first : forall n r, reached (n :: r) [] n
| re_inside : forall n r f path m, opens n f -> reached (tn_child n) path m -> reached (n :: r) ((n, f) :: path) m
| re_later : forall n r path m, ~ jump n -> reached r path m -> reached (n :: r) path m.

(** The function that is around, and the scopes: functions stand alone, blocks are in what is around them. *)
Fixpoint function_at (f : option nat) (path : list (tnode * option nat)) : option nat :=
  match path with [] => f | (_, Some k) :: path => function_at (Some k) path | (_, None) :: path => function_at f path end.
Fixpoint scope_at (c : dscope) (path : list (tnode * option nat)) : dscope :=
  match path with
  | [] => c
  | (_, Some k) :: path => scope_at (ScFun (Some k)) path
  | (n, None) :: path => scope_at (ScBlock c (node_loc (tn_token n))) path
  end.

(** Tokens of calls in an expression, and the first token of an operand. *)
Inductive calls : texpr -> location -> Prop :=
| ca_here : forall name k args ty, calls (XCall name k args ty) (t_loc name)
| ca_arg : forall name k args ty a l, In a args -> calls a l -> calls (XCall name k args ty) l
| ca_un : forall o r ty c l, calls r l -> calls (XUn o r ty c) l
| ca_left : forall o x y ty c l, calls x l -> calls (XBin o x y ty c) l
| ca_right : forall o x y ty c l, calls y l -> calls (XBin o x y ty c) l.
Inductive starts : texpr -> location -> Prop :=
| st_var : forall t k ty c, starts (XVar t k ty c) (t_loc t)
| st_const : forall t v ty, starts (XConst t v ty) (t_loc t)
| st_call : forall t k args ty, starts (XCall t k args ty) (t_loc t)
| st_un : forall o r ty c l, starts r l -> starts (XUn o r ty c) l
| st_bin : forall o x y ty c l, starts x l -> starts (XBin o x y ty c) l.

(** The locations that belong to a statement: of itself for `return` and `noop`, of the names of calls, of the
    start of conditions, and the place where a variable is defined for definitions and assignments. *)
Inductive belongs : tnode -> location -> Prop :=
| be_own : forall ty tok p c, In ty [N_RETURN; N_NOOP] -> belongs (mktnode ty tok p c) (node_loc tok)
| be_call : forall ty tok e c l, In ty [N_RETURN; N_EXPR; N_IF; N_ELIF; N_WHILE] -> calls e l -> belongs (mktnode ty tok (XExpr e) c) l
| be_cond : forall ty tok e c l, In ty [N_IF; N_ELIF; N_WHILE] -> starts e l -> belongs (mktnode ty tok (XExpr e) c) l
| be_value : forall ty tok p k e c l, In ty [N_VAR_DEF; N_VAR_ASSIGN] -> p = XDef k e \/ p = XSet k e -> calls e l -> belongs (mktnode ty tok p c) l
| be_var : forall ty tok p k e c y, In ty [N_VAR_DEF; N_VAR_ASSIGN] -> p = XDef k e \/ p = XSet k e -> nth_error ys k = Some y -> belongs (mktnode ty tok p c) (y_loc y).
End Where.

(** The function that a scope is in, which is what the verifier of LLVM asks for. *)
Fixpoint subprogram (c : dscope) : option nat := match c with ScFun f => f | ScBlock c _ => subprogram c end.
