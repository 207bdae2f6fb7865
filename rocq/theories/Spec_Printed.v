(** How the messages read on the screen. *)
From Coq Require Import List Arith NArith ZArith Bool Ascii String.
From Verif Require Import Base Model_Token Spec_Token Model_Utf8 Spec_Utf8 Model_Literal Model_Parse Model_Sem Spec_Types Spec_Sem Model_Pipeline Spec_Pipeline.
Import ListNotations.
Open Scope list_scope.
Open Scope N_scope.

(** t is n in decimal, without needless zeros. *)
Definition decimal (n : N) (t : text) : Prop :=
  t <> [] /\ Forall (fun c => chr "0" <= c <= chr "9") t /\ (hd 0 t = chr "0" -> t = [chr "0"]) /\
  fold_left (fun a c => 10 * a + (c - chr "0")) t 0 = n.

(** The sentence has x in quotes between two other parts. *)
Definition about (before x behind s : text) : Prop := s = before ++ u """" ++ x ++ u """" ++ behind.

(** The same with what is written at a token. *)
Definition about_token (src before : text) (t : token) (behind s : text) : Prop :=
  exists x, spells src t x /\ about before x behind s.

(** The sentences of the tokenizer. *)
Definition lex_says (e : lexerr) (s : text) : Prop :=
  s = match e with
      | E_INVALID_COMMENT_START => u "invalid start of comment"
      | E_NESTED_BLOCK_COMMENT => u "cannot put opening block comment in existing block comment"
      | E_NO_CLOSING_COMMENT => u "expected closing ""#}"" for block comment"
      | E_NO_CLOSING_QUOTE => u "expected closing quote"
      end.

(** The sentences of the parser. *)
Definition parse_says (src : text) (c : perr) (s : text) : Prop :=
  match c with
  | P_UNEXPECTED_TOKEN (Some t) => about_token src (u "unexpected token: ") t [] s
  | P_INVALID_EXPR (Some t) => about_token src (u "invalid expression near ") t [] s
  | P_EXPECTED_EXPR t => about_token src (u "expected expression after ") t [] s
  | P_UNEXPECTED_TOKEN None | P_INVALID_EXPR None => False
  | P_EOF_NO_BRACKET => s = u "Reached EOF, expected closing bracket"
  | P_MISSING_OPEN_BRAK => s = u "missing opening bracket"
  | P_MISSING_CLOSING_PAREN => s = u "missing closing parenthesis"
  | P_IMPORT_IDENT => s = u "expected identifier after ""import"""
  | P_UNEXPECTED_CODE_BLOCK => s = u "unexpected code block"
  | P_EMPTY_BLOCK => s = u "code block cannot be empty"
  | P_EXPECTED_COMMA => s = u "expected comma"
  | P_UNCLOSED_FUNC_CALL => s = u "function call missing closing parenthesis"
  | P_ASSIGN_MISSING_EXPR => s = u "expected expression in assignment variable"
  | P_EXPECTED_NEWLINE => s = u "expected a newline"
  | P_NO_DOUBLE_UNARY => s = u "cannot use unary operator twice"
  | P_UNEXPECTED_UNARY_EXPR => s = u "unexpected unary operator"
  | P_MISSING_ASSIGNMENT => s = u "variable is missing an assignment"
  | P_UNEXPECTED_COMMA => s = u "unexpected comma"
  end.

(** The words for kinds of symbols. *)
Definition kind_word (y : symtype) : text :=
  match y with
  | Y_VAR => u "variable" | Y_FUNC => u "function" | Y_ALIAS => u "type alias" | Y_SPACE => u "namespace"
  end.

(** The sentences of the checks; `why` is what the system says about a file. *)
Definition check_says (src why : text) (c : scode) (s : text) : Prop :=
  match c with
  | S_NOT_INT => s = u "expected an integer"
  | S_FUNC_TYPE_MISMATCH want got =>
      s = u "expected param of type """ ++ spelled want ++ u """, got """ ++ spelled got ++ u """"
  | S_EXPECTED_SAME_TYPE want got =>
      s = u "expected type """ ++ spelled want ++ u """, got """ ++ spelled got ++ u """"
  | S_VAR_NOT_FOUND n => about (u "variable ") n (u " not found") s
  | S_MISSING_DECLARATION t => about_token src (u "function ") t (u " missing declaration") s
  | S_MISSING_BLOCK w => s = w ++ u " statement must be followed by code block"
  | S_NO_VOID_ASSIGN q => exists t, hd_error q = Some t /\
      about_token src (u "function returning type void cannot be assigned to variable ") t [] s
  | S_VAR_ALREADY_DEFINED n => about (u "variable ") n (u " already defined") s
  | S_NON_INT_MAIN t => about_token src (u "returning non-int expression ") t (u " from main") s
  | S_NON_BOOL_EXPR => s = u "expected boolean expression"
  | S_NO_REDEFINE_FUNC n => about (u "cannot redeclare function ") n [] s
  | S_ZERO_PARAM_FUNC => s = u "passing parameter to function that takes zero parameters"
  | S_SHADOW_VAR n => about (u "variable ") n (u " shadows existing variable") s
  | S_EXPECTED_RETURN n => about (u "expected return value in function ") n [] s
  | S_NO_VOID_RETURN n => about (u "unexpected return from void function ") n [] s
  | S_ELSE_ELIF_MISSING_IF => s = u "else/elif statement missing preceding if statement"
  | S_UNEXPECTED_CODE_BLOCK => s = u "unexpected code block"
  | S_UNREACHABLE_CODE => s = u "unreachable code"
  | S_REASSIGN_CONST t => about_token src (u "cannot reassign const variable ") t [] s
  | S_NO_DANGLING_EXPR => s = u "expression cannot be used on its own"
  | S_REDUNDANT_REASSIGN t => about_token src (u "redundant assignment of variable ") t (u " to itself") s
  | S_DIV_BY_ZERO => s = u "division by zero"
  | S_NO_NESTED t => about_token src (u "cannot declare nested function ") t (u " as external or exported") s
  | S_TYPE_NOT_FOUND q => exists t, hd_error q = Some t /\ about_token src (u "type ") t (u " could not be found") s
  | S_ALIAS_ALREADY_DEFINED n => about (u "alias ") n (u " is already defined") s
  | S_RETURN_MISSING_EXPR => s = u "expected expression in return"
  | S_INVALID_NUM_PARAMS => s = u "invalid number of parameters"
  | S_POW_BAD_TYPE t => about (u "cannot use type ") (spelled t) (u " for power operator") s
  | S_WARN_VAR_NOT_CONST n => about (u "variable ") n (u " should be constant") s
  | S_WARN_VAR_UNUSED n => about (u "variable ") n (u " is unused") s
  | S_WARN_FUNC_UNUSED n => about (u "function ") n (u " is unused") s
  | S_WARN_COND_ALWAYS_TRUE => s = u "condition is always true"
  | S_WARN_COND_ALWAYS_FALSE => s = u "condition is always false"
  | S_WARN_TRIVIAL_TYPE t => about (u "explicit type ") (spelled t) (u " can be trivialy deduced") s
  | S_NOT_NUMERIC => s = u "expected a numeric value"
  | S_BREAK_NOT_IN_WHILE => s = u "break must be inside while loop"
  | S_CONTINUE_NOT_IN_WHILE => s = u "continue must be inside while loop"
  | S_NO_MUT_TYPE_ALIAS => s = u "type alias cannot be mutable"
  | S_NO_TYPE_EXPR => s = u "type aliases cannot be used in expressions"
  | S_REF_IDENT_ONLY => s = u "cannot take reference of non-identifier"
  | S_CANNOT_DEREF => s = u "cannot dereference expression"
  | S_LOAD_MODULE n => about (u "could not load module ") n (u ": " ++ why) s
  | S_NO_REDEFINE_X_AS_Y old n new =>
      about (u "cannot redeclare " ++ kind_word old ++ u " ") n (u " as " ++ kind_word new) s
  | S_LITERAL t ERR_OVERFLOW => about_token src (u "overflow occurred while parsing ") t [] s
  | S_LITERAL _ (ERR_BAD_ESCAPE w) => exists x, utf8 w x /\ about (u "bad escape sequence: ") x [] s
  | S_LITERAL _ ERR_NO_CONTROL_CHAR => s = u "control character cannot be used in rune"
  | S_LITERAL _ ERR_RUNE_TOO_LONG => s = u "rune contains too many characters"
  | S_LITERAL _ ERR_ILLEGAL_SEQ => s = u "illegal UTF8 sequence in this region"
  end.

(** All sentences. A sequence that is no UTF-8 is said to stand behind so many characters;
    the note has one more. *)
Definition note_says (src why : text) (n : note) (s : text) : Prop :=
  match n with
  | NoteDecode i => exists k d, i = k + 1 /\ decimal k d /\ s = u "illegal UTF8 sequence at character offset " ++ d
  | NoteBom => s = u "BOM found"
  | NoteLex e _ => lex_says e s
  | NoteParse m => parse_says src (m_code m) s
  | NoteCheck m => check_says src why (sm_code m) s
  | NoteEmpty _ => s = u "file is empty"
  end.

(** The messages that are warnings. *)
Definition is_warning (n : note) : bool :=
  match n with
  | NoteBom | NoteEmpty false => true
  | NoteCheck m =>
      match sm_code m with
      | S_WARN_VAR_NOT_CONST _ | S_WARN_VAR_UNUSED _ | S_WARN_FUNC_UNUSED _ | S_WARN_COND_ALWAYS_TRUE
      | S_WARN_COND_ALWAYS_FALSE | S_WARN_TRIVIAL_TYPE _ => true
      | _ => false
      end
  | _ => false
  end.

(** Where the message points. *)
Definition note_place (n : note) : option location :=
  match n with
  | NoteLex _ l => Some l
  | NoteParse m => m_loc m
  | NoteCheck m => sm_loc m
  | _ => None
  end.
Definition placed (l : option location) (p : text) : Prop :=
  match l with
  | None => p = []
  | Some l => exists a b, decimal (l_line l) a /\ decimal (l_column l) b /\
      p = u "line " ++ a ++ u " column " ++ b ++ u ": "
  end.

(** The kind of message, in bold yellow or red if colors are wanted. *)
Definition kind_text (color warning : bool) : text :=
  match warning, color with
  | true, false => u "Warning"
  | true, true => [27] ++ u "[1m" ++ [27] ++ u "[93m" ++ u "Warning" ++ [27] ++ u "[0m"
  | false, false => u "Compilation error"
  | false, true => [27] ++ u "[1m" ++ [27] ++ u "[91m" ++ u "Compilation error" ++ [27] ++ u "[0m"
  end.

(** The text that is printed for a message about a file, if its last part is s. *)
Definition framed (color : bool) (file : text) (n : note) (s t : text) : Prop :=
  exists p, placed (note_place n) p /\ t = file ++ u ": " ++ kind_text color (is_warning n) ++ u ": " ++ p ++ s ++ [10].
Definition printed (color : bool) (file src why : text) (n : note) (t : text) : Prop :=
  exists s, note_says src why n s /\ framed color file n s t.

(** The message about an operand that is missing at the end of the file. *)
Definition at_the_end : note := NoteParse (mkmsg (P_INVALID_EXPR None) None).

(** The text of a file: what its bytes in front of a NUL encode, without a byte order mark. *)
Definition text_of (bytes body : text) : Prop :=
  exists t, until_nul bytes t /\ (utf8 (65279 :: body) t \/ utf8 body t /\ hd 0 body <> 65279).

(** A message with a location has the one of a character of the text; of the location of an inner
    comment only the line is said. *)
Definition right_note (body : text) (n : note) : Prop :=
  match note_place n with
  | None => True
  | Some l => exists b, (b < List.length body)%nat /\ l_line l = N.of_nat (1 + newlines (firstn b body)) /\
      match n with NoteLex E_NESTED_BLOCK_COMMENT _ => True | _ => right_place body b l end
  end.
