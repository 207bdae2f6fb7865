(** Which C program stands for a checked program. *)
From Coq Require Import List Arith NArith ZArith Bool Ascii String.
From Verif Require Import Base Model_Token Model_Literal Model_Parse Model_Sem Spec_Sem Spec_Sem2 Model_Names Model_CGen Spec_C Spec_CGen Spec_CProg.
Import ListNotations.
Open Scope list_scope.
Open Scope N_scope.

Fixpoint c_type (t : ty) : cty :=
  match t with
  | TInt => TyInt64
  | TFloat => TyDouble
  | TRune => TyChar32
  | TStr => TyPtr TyChar
  | TBool => TyBool
  | TVoid => TyVoid
  | TRef t => TyPtr (c_type t)
  end.

Section Stands.
Variable env : cctx.

(** The name and the record of a variable or a function. *)
Definition is_var (k : nat) (x : text) (v : var) : Prop := exists y, nth_error (ce_syms env) k = Some y /\ y_name y = x /\ y_kind y = KVar v.
Definition is_fun (k : nat) (x : text) (f : func) : Prop := exists y, nth_error (ce_syms env) k = Some y /\ y_name y = x /\ y_kind y = KFunc f.
Definition param_of (k : nat) (p : cty * text) : Prop := exists x v, is_var k x v /\ p = (c_type (v_type v), x).
(** Exported names have the linkage names of other modules. *)
Definition labelled (k : nat) (exported : bool) (l : option text) : Prop :=
  if exported then l = ce_linkage env k /\ l <> None else l = None.

(** `stands top l cs ds`: the statements l are written as the C statements cs, and ds is put
    in front of the functions that are running. `top` says whether the statements stand at the
    top of the program or of a function: variables that are defined there are put outside. *)
Inductive stands : bool -> list tnode -> list cstmt -> list cdef -> Prop :=
| sd_nil : forall top, stands top [] [] []
| sd_none : forall top n l cs ds, In (tn_type n) [N_COMMENT; N_IMPORT; N_UNKNOWN] \/ tn_type n = N_VAR_DEF /\ tn_pay n = XAlias ->
    stands top l cs ds -> stands top (n :: l) cs ds
| sd_local : forall n l k e x v ce cs ds, tn_type n = N_VAR_DEF -> tn_pay n = XDef k e -> is_var k x v -> same env e ce ->
    stands false l cs ds -> stands false (n :: l) (CDecl (v_const v) (c_type (v_type v)) x ce :: cs) ds
| sd_outside : forall n l k e x v label ce cs ds, tn_type n = N_VAR_DEF -> tn_pay n = XDef k e -> is_var k x v -> same env e ce ->
    v_cexpr v = Some false -> labelled k (v_exported v) label -> stands true l cs ds ->
    stands true (n :: l) (CAssign x ce :: cs) (FVar (negb (v_exported v)) false (c_type (v_type v)) x label None :: ds)
| sd_constant : forall n l k e x v label ce cs ds, tn_type n = N_VAR_DEF -> tn_pay n = XDef k e -> is_var k x v -> same env e ce ->
    v_cexpr v = Some true -> labelled k (v_exported v) label -> stands true l cs ds ->
    stands true (n :: l) cs (FVar (negb (v_exported v)) (v_const v) (c_type (v_type v)) x label (Some ce) :: ds)
| sd_assign : forall top n l k e x v ce cs ds, tn_type n = N_VAR_ASSIGN -> tn_pay n = XSet k e -> is_var k x v -> same env e ce ->
    stands top l cs ds -> stands top (n :: l) (CAssign x ce :: cs) ds
| sd_call : forall top n l e ce cs ds, tn_type n = N_EXPR -> tn_pay n = XExpr e -> same env e ce ->
    stands top l cs ds -> stands top (n :: l) (CExpr ce :: cs) ds
| sd_return : forall top n l cs ds, tn_type n = N_RETURN -> tn_pay n = XNone -> stands top l cs ds -> stands top (n :: l) (CReturn None :: cs) ds
| sd_result : forall top n l e ce cs ds, tn_type n = N_RETURN -> tn_pay n = XExpr e -> same env e ce ->
    stands top l cs ds -> stands top (n :: l) (CReturn (Some ce) :: cs) ds
| sd_noop : forall top n l cs ds, tn_type n = N_NOOP -> stands top l cs ds -> stands top (n :: l) (CVoid (CNum (u "0")) :: cs) ds
| sd_unreachable : forall top n l cs ds, tn_type n = N_UNREACHABLE -> stands top l cs ds ->
    stands top (n :: l) (CWhile (CNum (u "1")) [] :: cs) ds
| sd_break : forall top n l cs ds, tn_type n = N_BREAK -> stands top l cs ds -> stands top (n :: l) (CBreak :: cs) ds
| sd_continue : forall top n l cs ds, tn_type n = N_CONTINUE -> stands top l cs ds -> stands top (n :: l) (CContinue :: cs) ds
| sd_if : forall top n l e ce b ds1 o ds2 r cs ds, tn_type n = N_IF -> tn_pay n = XExpr e -> same env e ce ->
    stands false (tn_child n) b ds1 -> others l o ds2 r -> stands top r cs ds ->
    stands top (n :: l) (CIf ce b o :: cs) (ds1 ++ ds2 ++ ds)
| sd_while : forall top n l e ce b ds1 cs ds, tn_type n = N_WHILE -> tn_pay n = XExpr e -> same env e ce ->
    stands false (tn_child n) b ds1 -> stands top l cs ds -> stands top (n :: l) (CWhile ce b :: cs) (ds1 ++ ds)
| sd_space : forall top n l k y b ds1 cs ds, tn_type n = N_NAMESPACE -> tn_pay n = XSpace k -> nth_error (ce_syms env) k = Some y ->
    stands false (tn_child n) b ds1 -> stands top l cs ds ->
    stands top (n :: l) (CExpr (CStr (y_name y)) :: CBlock b :: cs) (ds1 ++ ds)
| sd_function : forall top n l k ks x f label ps b ds1 cs ds, tn_type n = N_FUNCTION_PROTO -> tn_pay n = XProto k ks -> is_fun k x f ->
    f_external f = false -> labelled k (f_export f) label -> Forall2 param_of ks ps -> stands true (tn_child n) b ds1 -> stands top l cs ds ->
    stands top (n :: l) cs
      (ds1 ++ (if f_export f then [FProto false (c_type (f_ret f)) x ps label] else []) ++
       FFunc (negb (f_export f)) (c_type (f_ret f)) x ps b :: ds)
| sd_external : forall top n l k ks x f label ps cs ds, tn_type n = N_FUNCTION_PROTO -> tn_pay n = XProto k ks -> is_fun k x f ->
    f_external f = true -> labelled k (f_export f) label -> Forall2 param_of ks ps -> stands top l cs ds ->
    stands top (n :: l) cs (FProto false (c_type (f_ret f)) x ps label :: ds)
(** The branches behind an `if`, and the statements behind them. *)
with others : list tnode -> option cstmt -> list cdef -> list tnode -> Prop :=
| ot_none : forall l, (forall n r, l = n :: r -> tn_type n <> N_ELIF /\ tn_type n <> N_ELSE) -> others l None [] l
| ot_comment : forall n l o ds r, tn_type n = N_COMMENT -> others l o ds r -> others (n :: l) o ds r
| ot_elif : forall n l e ce b ds1 o ds r, tn_type n = N_ELIF -> tn_pay n = XExpr e -> same env e ce ->
    stands false (tn_child n) b ds1 -> others l o ds r -> others (n :: l) (Some (CIf ce b o)) (ds1 ++ ds) r
| ot_else : forall n l b ds1, tn_type n = N_ELSE -> stands false (tn_child n) b ds1 -> others (n :: l) (Some (CBlock b)) ds1 l.

(** The whole program: the statements of the main program are the function `init`, which the
    linker knows by the name of the module. *)
Definition unit_stands (l : list tnode) (m : text) (ds : list cdef) : Prop :=
  exists cs ds0, stands true l cs ds0 /\
  ds = ds0 ++ [FProto true TyInt (u "init") [] (Some m);
               FFunc true TyInt (u "init") [] (cs ++ [CReturn (Some (CNum (u "0")))]);
               FFunc false TyInt (u "main") [] [CReturn (Some (CCall (CId (u "init")) []))]].
End Stands.

(** The helper function that an operator needs. *)
Definition helper_for (o : binop) (operands result : ty) : option helper :=
  match o, operands, result with
  | (BIs | BIsnt), TStr, _ => Some HStrcmp
  | BPow, _, TInt => Some HIntPow
  | BPow, _, TFloat => Some HFloatPow
  | _, _, _ => None
  end.
(** The helpers that a program needs are among hs. *)
Definition helped (l : list tnode) (hs : list helper) : Prop :=
  forall n o a b t c h, in_checked n l -> uses n (XBin o a b t c) -> helper_for o (x_ty a) t = Some h -> In h hs.

(** * Programs that can be written in C *)

(** Words of C23 that are no words of C11. *)
Definition c23_words : list text :=
  map u ["bool"; "true"; "false"; "nullptr"; "constexpr"; "static_assert"; "thread_local"; "alignas"; "alignof"; "typeof"; "typeof_unqual"]%string.
Definition usable (c23 : bool) (n : text) : Prop := c_name n = true /\ (c23 = true -> ~ In n c23_words).

Fixpoint has_bool (t : ty) : Prop := match t with TBool => True | TRef t => has_bool t | _ => False end.

(** The names of variables and functions can be names in C, and their types are known to C. *)
Definition writable_symbol (c23 : bool) (y : symbol) : Prop :=
  match y_kind y with
  | KVar v => usable c23 (y_name y) /\ (c23 = false -> ~ has_bool (v_type v))
  | KFunc f => usable c23 (y_name y) /\ (c23 = false -> ~ has_bool (f_ret f))
  | KSpace _ => plain_chars (y_name y)
  | _ => True
  end.
(** The first symbol stands for the program itself and has no name.
    What is put between quotes needs no escapes, and there are no blocks behind external
    functions (they are checked, but not written). *)
Definition writable (c23 : bool) (env : cctx) (l : list tnode) : Prop :=
  (forall k y, nth_error (ce_syms env) (S k) = Some y -> writable_symbol c23 y) /\
  (forall n e, in_checked n l -> checked_expr n = Some e -> printable env e) /\
  (forall k t, ce_linkage env k = Some t -> plain_chars t) /\ plain_chars (ce_file env) /\
  (forall n k ks x f, in_checked n l -> tn_pay n = XProto k ks -> is_fun env k x f -> f_external f = true -> tn_child n = []).

(** * Which files are written *)

(** Statements without a text of their own: comments, imports, aliases, functions (they are put in
    front), and at the top of the program or of a function variables that are initialised by
    a constant. *)
Definition silent (env : cctx) (top : bool) (n : tnode) : Prop :=
  In (tn_type n) [N_COMMENT; N_IMPORT; N_UNKNOWN; N_FUNCTION_PROTO] \/ tn_type n = N_VAR_DEF /\ tn_pay n = XAlias \/
  top = true /\ tn_type n = N_VAR_DEF /\ exists k e x v, tn_pay n = XDef k e /\ is_var env k x v /\ v_cexpr v = Some true.
(** There is something to write in each block. *)
Definition filled (env : cctx) (l : list tnode) : Prop := forall n, in_checked n l ->
  (In (tn_type n) [N_IF; N_ELIF; N_ELSE; N_WHILE; N_NAMESPACE] -> exists m, In m (tn_child n) /\ ~ silent env false m) /\
  (forall k ks x f, tn_type n = N_FUNCTION_PROTO -> tn_pay n = XProto k ks -> is_fun env k x f -> f_external f = false ->
     exists m, In m (tn_child n) /\ ~ silent env true m).
(** Exported names have linkage names. *)
Definition labels_known (env : cctx) : Prop :=
  (forall k x v, is_var env k x v -> v_exported v = true -> ce_linkage env k <> None) /\
  (forall k x f, is_fun env k x f -> f_export f = true -> ce_linkage env k <> None).
