(** The words of the language, class by class. *)
From Coq Require Import List Arith NArith Ascii String.
From Verif Require Import Base Model_Token.
Import ListNotations.
Open Scope list_scope.
Open Scope N_scope.

Definition digit (c : N) : Prop := chr "0" <= c <= chr "9".
Definition hex_digit (c : N) : Prop :=
  digit c \/ chr "a" <= c <= chr "f" \/ chr "A" <= c <= chr "F".
Definition octal_digit (c : N) : Prop := chr "0" <= c <= chr "7".
Definition binary_digit (c : N) : Prop := c = chr "0" \/ c = chr "1".
Definition letter (c : N) : Prop := chr "A" <= c <= chr "Z" \/ chr "a" <= c <= chr "z".

(** One or more digits, single underscores between digits allowed. *)
Inductive digits (D : N -> Prop) : text -> Prop :=
| dg_one : forall d, D d -> digits D [d]
| dg_more : forall d s, D d -> digits D s -> digits D (d :: s)
| dg_under : forall d s, D d -> digits D s -> digits D (d :: chr "_" :: s).

(** Integers: decimal with optional minus, or prefixed. *)
Inductive int_word : text -> Prop :=
| int_dec : forall s, digits digit s -> int_word s
| int_neg : forall s, digits digit s -> int_word (chr "-" :: s)
| int_hex : forall s, digits hex_digit s -> int_word (u "0x" ++ s)
| int_oct : forall s, digits octal_digit s -> int_word (u "0o" ++ s)
| int_bin : forall s, digits binary_digit s -> int_word (u "0b" ++ s).

(** The one shape of decimal integer that is not accepted: 0_ at the start. *)
Definition zero_under (s : text) : Prop := exists r, s = u "0_" ++ r.

(** Floats: NaN, plus or minus Infinity, digits with a point and more digits. *)
Inductive float_word : text -> Prop :=
| fl_nan : float_word (u "NaN")
| fl_inf : float_word (u "Infinity")
| fl_ninf : float_word (u "-Infinity")
| fl_pos : forall a b, digits digit a -> b <> [] -> Forall digit b -> float_word (a ++ chr "." :: b)
| fl_neg : forall a b, digits digit a -> b <> [] -> Forall digit b ->
    float_word (chr "-" :: a ++ chr "." :: b).

(** true and false. *)
Inductive bool_word : text -> Prop :=
| bool_true : bool_word (u "true")
| bool_false : bool_word (u "false").

(** A rune: one character, or a backslash and one to nine more, between single quotes. *)
Inductive rune_word : text -> Prop :=
| rune_plain : forall c, rune_word [39; c; 39]
| rune_esc : forall s, (1 <= List.length s <= 9)%nat -> rune_word (39 :: 92 :: s ++ [39]).

(** A string: anything that starts and ends with a double quote. *)
Inductive str_word : text -> Prop :=
| str_any : forall s, str_word (34 :: s ++ [34]).

(** A name: a letter, then letters, digits, underscores, points; no point at the end. *)
Definition name_char (c : N) : Prop := letter c \/ digit c \/ c = chr "_" \/ c = chr ".".
Definition name (s : text) : Prop :=
  exists c r, s = c :: r /\ letter c /\ Forall name_char r /\ last s 0 <> chr ".".
Definition dotted (s : text) : Prop := In (chr ".") s.

(** Operators and keywords. *)
Definition word_table : list (text * ttype) :=
  [(u "=", T_OPER_EQUAL); (u "+", T_OPER_PLUS); (u "-", T_OPER_DASH); (u "*", T_OPER_STAR);
   (u "/", T_OPER_DIV); (u "<", T_OPER_LESS_THAN); (u ">", T_OPER_GTR_THAN); (u "^", T_OPER_POW);
   (u ":=", T_OPER_AUTO_EQUAL); (u "<=", T_OPER_LESS_THAN_EQ); (u ">=", T_OPER_GTR_THAN_EQ);
   (u "<<", T_OPER_LSHIFT); (u ">>", T_OPER_RSHIFT);
   (u "mod", T_OPER_MOD); (u "not", T_OPER_NOT); (u "is", T_OPER_IS); (u "isnt", T_OPER_ISNT);
   (u "and", T_OPER_AND); (u "or", T_OPER_OR); (u "xor", T_OPER_XOR);
   (u "mut", T_KW_MUT); (u "return", T_KW_RETURN); (u "unreachable", T_KW_UNREACHABLE);
   (u "if", T_KW_IF); (u "elif", T_KW_ELIF); (u "else", T_KW_ELSE); (u "while", T_KW_WHILE);
   (u "external", T_KW_EXTERNAL); (u "export", T_KW_EXPORT); (u "noop", T_KW_NOOP);
   (u "break", T_KW_BREAK); (u "continue", T_KW_CONTINUE); (u "import", T_KW_IMPORT);
   (u "namespace", T_KW_NAMESPACE)].

(** Words that no name may be. *)
Definition reserved : list text :=
  [u "mut"; u "return"; u "unreachable"; u "if"; u "elif"; u "else"; u "while";
   u "external"; u "export"; u "noop"; u "break"; u "continue"; u "import"; u "namespace";
   u "mod"; u "not"; u "is"; u "isnt"; u "and"; u "or"; u "xor";
   u "true"; u "false"; u "NaN"; u "Infinity"].
Definition type_names : list text :=
  [u "Int"; u "Float"; u "Bool"; u "Rune"; u "Str"; u "Void"].

(** The class of a word. *)
Inductive is_class : text -> ttype -> Prop :=
| ic_word : forall s ty, In (s, ty) word_table -> is_class s ty
| ic_int : forall s, int_word s -> ~ zero_under s -> is_class s T_INT_CONST
| ic_float : forall s, float_word s -> is_class s T_FLOAT_CONST
| ic_bool : forall s, bool_word s -> is_class s T_BOOL_CONST
| ic_rune : forall s, rune_word s -> is_class s T_RUNE_CONST
| ic_str : forall s, str_word s -> is_class s T_STR_CONST
| ic_name : forall s, name s -> ~ dotted s -> ~ In s reserved -> is_class s T_IDENTIFIER
| ic_dotted : forall s, name s -> dotted s -> is_class s T_DOT_IDENTIFIER
| ic_new : forall s, name s -> ~ dotted s -> ~ In s reserved -> ~ In s type_names ->
    is_class (s ++ [chr ":"]) T_NEW_IDENTIFIER.

(** Words without a class. *)
Definition no_class (s : text) : Prop := forall ty, ~ is_class s ty.

(** The token t covers the word w in the text src. *)
Definition on_word (src : text) (t : token) (w : text) : Prop :=
  exists pre post, src = pre ++ w ++ post /\ t_begin t = Some (List.length pre) /\
    t_len t = N.of_nat (List.length w).

(** t' is the classified form of t: tokens which have a type are left alone; the others
    cover a word and get its class, if it has one. A new name loses its colon. *)
Definition classified (src : text) (t t' : token) : Prop :=
  t_begin t' = t_begin t /\ t_loc t' = t_loc t /\
  (t_type t <> T_UNKNOWN -> t' = t) /\
  (t_type t = T_UNKNOWN -> exists w, w <> [] /\ on_word src t w /\
     ((no_class w /\ t' = t) \/
      (is_class w (t_type t') /\
       (t_type t' = T_NEW_IDENTIFIER -> t_len t' = t_len t - 1) /\
       (t_type t' <> T_NEW_IDENTIFIER -> t_len t' = t_len t)))).

(** The types of tokens that are used as names. *)
Definition name_type (ty : ttype) : Prop :=
  ty = T_IDENTIFIER \/ ty = T_NEW_IDENTIFIER \/ ty = T_DOT_IDENTIFIER.
