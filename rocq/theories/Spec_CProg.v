(** The part of ISO C that generated files use, behind expressions (Spec_C.v): statements
    (C11 6.8), declarations (6.7) and translation units (6.9). *)
From Coq Require Import List Arith NArith ZArith Bool Ascii String.
From Verif Require Import Base Spec_C.
Import ListNotations.
Open Scope list_scope.
Open Scope N_scope.

(** * Programs *)

Inductive cty := TyInt | TyInt64 | TyDouble | TyChar32 | TyBool | TyVoid | TyChar | TyPtr (t : cty).

(** Declarations with an initialiser, assignments, expressions, expressions cast to void,
    selections, loops, jumps and blocks. *)
Inductive cstmt :=
| CDecl (const : bool) (t : cty) (x : text) (e : cexp)
| CAssign (x : text) (e : cexp)
| CExpr (e : cexp)
| CVoid (e : cexp)
| CIf (e : cexp) (b : list cstmt) (other : option cstmt)
| CWhile (e : cexp) (b : list cstmt)
| CReturn (e : option cexp)
| CBreak
| CContinue
| CBlock (b : list cstmt).

(** What stands at file scope: variables, functions that are only declared, functions. Labels
    are the names that the linker uses (an extension of GNU C). *)
Inductive cdef :=
| FVar (static const : bool) (t : cty) (x : text) (label : option text) (init : option cexp)
| FProto (static : bool) (t : cty) (f : text) (ps : list (cty * text)) (label : option text)
| FFunc (static : bool) (t : cty) (f : text) (ps : list (cty * text)) (b : list cstmt).

(** * Lines *)

(** The text without its preprocessing directives, which are the lines that start with `#`.
    (Generated files have `#include` and `#line`, which change neither names nor values.) *)
Inductive mode := MStart | MInside | MDirective.
Fixpoint no_directives (m : mode) (t : text) : text :=
  match t with
  | [] => []
  | c :: r =>
      if c =? 10 then c :: no_directives MStart r
      else
        match m with
        | MStart => if c =? chr "#" then no_directives MDirective r else c :: no_directives MInside r
        | MInside => c :: no_directives MInside r
        | MDirective => no_directives MDirective r
        end
  end.

(** * Grammar

    `..._at ts x rest`: x is written at the start of the tokens ts, and rest is behind it.
    `c23` says whether `bool` is the name of a type: it is in C23, but not before, as long as
    <stdbool.h> is not included. *)

Definition kw (s : string) : ctok := KId (u s).
Definition op (s : string) : ctok := KOp (u s).

Section Grammar.
Variable c23 : bool.

(** The words that types of generated programs start with. *)
Definition type_words : list (text * cty) :=
  [(u "int", TyInt); (u "int64_t", TyInt64); (u "double", TyDouble); (u "char32_t", TyChar32); (u "void", TyVoid); (u "char", TyChar)] ++
  (if c23 then [(u "bool", TyBool)] else []).
Definition type_word (n : text) (t : cty) : Prop := In (n, t) type_words.

Inductive stars_at : cty -> list ctok -> cty -> list ctok -> Prop :=
| st_none : forall t r, hd_error r <> Some (op "*") -> stars_at t r t r
| st_more : forall t ts t' r, stars_at (TyPtr t) ts t' r -> stars_at t (op "*" :: ts) t' r.
Definition type_at (ts : list ctok) (t : cty) (r : list ctok) : Prop :=
  exists n t0 ts', ts = KId n :: ts' /\ type_word n t0 /\ stars_at t0 ts' t r.

(** An expression up to a `;` or a `)`, which is left out of the rest. *)
Definition expr_to (stop : string) (ts : list ctok) (e : cexp) (r : list ctok) : Prop :=
  exists used, ts = used ++ op stop :: r /\ reads 12 used e.
(** A statement that starts with the name of a type is a declaration. *)
Definition no_type (ts : list ctok) : Prop := forall n r, ts = KId n :: r -> forall t, ~ type_word n t.

Inductive stmt_at : list ctok -> cstmt -> list ctok -> Prop :=
| G_decl : forall (q : bool) ts t x ts' e r, type_at ts t (KId x :: op "=" :: ts') -> c_name x = true -> expr_to ";" ts' e r ->
    stmt_at ((if q then [kw "const"] else []) ++ ts) (CDecl q t x e) r
| G_assign : forall x ts e r, c_name x = true -> no_type [KId x] -> expr_to ";" ts e r -> stmt_at (KId x :: op "=" :: ts) (CAssign x e) r
| G_expr : forall ts e r, no_type ts -> expr_to ";" ts e r -> stmt_at ts (CExpr e) r
| G_void : forall used e r, reads 2 used e -> stmt_at (op "(" :: kw "void" :: op ")" :: used ++ op ";" :: r) (CVoid e) r
| G_if : forall ts e r1 b r2 o r, expr_to ")" ts e r1 -> block_at r1 b r2 -> else_at r2 o r ->
    stmt_at (kw "if" :: op "(" :: ts) (CIf e b o) r
| G_while : forall ts e r1 b r, expr_to ")" ts e r1 -> block_at r1 b r -> stmt_at (kw "while" :: op "(" :: ts) (CWhile e b) r
| G_return : forall r, stmt_at (kw "return" :: op ";" :: r) (CReturn None) r
| G_result : forall ts e r, expr_to ";" ts e r -> stmt_at (kw "return" :: ts) (CReturn (Some e)) r
| G_break : forall r, stmt_at (kw "break" :: op ";" :: r) CBreak r
| G_continue : forall r, stmt_at (kw "continue" :: op ";" :: r) CContinue r
| G_block : forall ts b r, block_at ts b r -> stmt_at ts (CBlock b) r
with block_at : list ctok -> list cstmt -> list ctok -> Prop :=
| G_braces : forall ts b r, stmts_at ts b (op "}" :: r) -> block_at (op "{" :: ts) b r
(** Up to the closing brace. *)
with stmts_at : list ctok -> list cstmt -> list ctok -> Prop :=
| G_nil : forall r, stmts_at (op "}" :: r) [] (op "}" :: r)
| G_cons : forall ts s r l r', stmt_at ts s r -> stmts_at r l r' -> stmts_at ts (s :: l) r'
(** Branches are blocks; behind `else` there is a block or an `if`. *)
with else_at : list ctok -> option cstmt -> list ctok -> Prop :=
| G_no_else : forall r, hd_error r <> Some (kw "else") -> else_at r None r
| G_else : forall ts b r, block_at ts b r -> else_at (kw "else" :: ts) (Some (CBlock b)) r
| G_else_if : forall ts e b o r, stmt_at ts (CIf e b o) r -> else_at (kw "else" :: ts) (Some (CIf e b o)) r.

Inductive params_at : list ctok -> list (cty * text) -> list ctok -> Prop :=
| G_void_params : forall r, params_at (kw "void" :: op ")" :: r) [] r
| G_last_param : forall ts t x r, type_at ts t (KId x :: op ")" :: r) -> c_name x = true -> params_at ts [(t, x)] r
| G_more_params : forall ts t x ts' ps r, type_at ts t (KId x :: op "," :: ts') -> c_name x = true -> ps <> [] -> params_at ts' ps r ->
    params_at ts ((t, x) :: ps) r.

Inductive label_at : list ctok -> option text -> list ctok -> Prop :=
| G_no_label : forall r, hd_error r <> Some (kw "__asm__") -> label_at r None r
| G_label : forall s r, label_at (kw "__asm__" :: op "(" :: KStr s :: op ")" :: r) (Some s) r.

Inductive init_at : list ctok -> option cexp -> list ctok -> Prop :=
| G_no_init : forall r, init_at (op ";" :: r) None r
| G_init : forall ts e r, expr_to ";" ts e r -> init_at (op "=" :: ts) (Some e) r.

Definition word_at (b : bool) (s : string) (ts r : list ctok) : Prop := ts = (if b then [kw s] else []) ++ r.

Inductive def_at : list ctok -> cdef -> list ctok -> Prop :=
| G_var : forall ts (s : bool) ts1 (q : bool) ts2 t x ts3 l ts4 i r, word_at s "static" ts ts1 -> word_at q "const" ts1 ts2 ->
    type_at ts2 t (KId x :: ts3) -> c_name x = true -> label_at ts3 l ts4 -> init_at ts4 i r -> def_at ts (FVar s q t x l i) r
| G_proto : forall ts s ts1 t f ts2 ps ts3 l r, word_at s "static" ts ts1 -> type_at ts1 t (KId f :: op "(" :: ts2) -> c_name f = true ->
    params_at ts2 ps ts3 -> label_at ts3 l (op ";" :: r) -> def_at ts (FProto s t f ps l) r
| G_func : forall ts s ts1 t f ts2 ps ts3 b r, word_at s "static" ts ts1 -> type_at ts1 t (KId f :: op "(" :: ts2) -> c_name f = true ->
    params_at ts2 ps ts3 -> block_at ts3 b r -> def_at ts (FFunc s t f ps b) r.

Inductive unit_at : list ctok -> list cdef -> Prop :=
| G_end : unit_at [] []
| G_def : forall ts d r ds, def_at ts d r -> unit_at r ds -> unit_at ts (d :: ds).

(** The text is a translation unit of C with exactly one reading, which is ds. *)
Definition is_c_unit (t : text) (ds : list cdef) : Prop :=
  exists ts, c_tokens (no_directives MStart t) = Some ts /\ unit_at ts ds /\ forall ds', unit_at ts ds' -> ds' = ds.
End Grammar.

(** * The functions in front of generated programs *)

Inductive helper := HStrcmp | HIntPow | HFloatPow.
Definition helper_name (h : helper) : text :=
  u (match h with HStrcmp => "_strcmp" | HIntPow => "_int_pow" | HFloatPow => "_float_pow" end).
Definition rows (l : list string) : text := List.concat (map (fun s => u s ++ [10]) l).
Definition includes : text := rows ["#include <stdint.h>"; "#include <uchar.h>"; ""]%string.
(** Their definitions; tabs are left out. *)
Definition helper_code (h : helper) : text :=
  match h with
  | HStrcmp => rows ["_Bool _strcmp(const char *a, const char *b) {"; "while (*a && *b) {"; "if (*a != *b) {"; "return 0;"; "}"; "a++;"; "b++;"; "}"; "";
                     "return !*a && !*b;"; "}"; ""]
  | HIntPow => rows ["int64_t _int_pow(int64_t base, int64_t exp) {"; "int64_t result = base;"; "for (int64_t i = 1; i < exp; i++) result *= base;";
                     "return result;"; "}"; ""]
  | HFloatPow => rows ["#include <math.h>"; "double (*_float_pow)(double, double) = pow;"; ""]
  end%string.
Definition no_tabs (t : text) : text := filter (fun c => negb (c =? 9)) t.

(** A generated file: the includes, the helpers hs and a translation unit. *)
Definition is_c_file (c23 : bool) (t : text) (hs : list helper) (ds : list cdef) : Prop :=
  exists front rest, t = includes ++ front ++ rest /\ no_tabs front = List.concat (map helper_code hs) /\ is_c_unit c23 rest ds.
