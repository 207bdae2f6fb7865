(** Model of skull/common/errors.c: how the messages are written, and of the places that give
    their parts.

    A message is formatted when it is reported and printed later; as the texts it points into do
    not change in between, the model formats the notes of Model_Pipeline.v in the end. Allocation
    and freeing are left out. `why` is what strerror returns (skull/semantic/import.c:83). *)
From Coq Require Import List Arith NArith ZArith Bool Ascii String.
From Verif Require Import Base Model_Token Model_Utf8 Model_Classify Model_Literal Model_Parse Model_Sem
  Model_Cli Model_CGen Spec_Run Spec_IR Model_Pipeline.
Import ListNotations.
Open Scope list_scope.
Open Scope N_scope.

(** ErrorCode, skull/common/errors.h:14-93, as far as it is used. *)
Inductive ecode :=
| ERR_UNEXPECTED_TOKEN | ERR_EOF_NO_BRACKET | ERR_NOT_INT | ERR_FUNC_TYPE_MISMATCH | ERR_EXPECTED_SAME_TYPE
| ERR_RUNE_TOO_LONG | ERR_BAD_ESCAPE | ERR_VAR_NOT_FOUND | ERR_OVERFLOW | ERR_MISSING_OPEN_BRAK
| ERR_MISSING_CLOSING_PAREN | ERR_MISSING_DECLARATION | ERR_MISSING_BLOCK | ERR_NO_CLOSING_COMMENT
| ERR_NO_CLOSING_QUOTE | ERR_NO_VOID_ASSIGN | ERR_IMPORT_IDENT | ERR_VAR_ALREADY_DEFINED | ERR_NON_INT_MAIN
| ERR_NON_BOOL_EXPR | ERR_NO_REDEFINE_FUNC | ERR_ZERO_PARAM_FUNC | ERR_SHADOW_VAR | ERR_EXPECTED_RETURN
| ERR_NO_VOID_RETURN | ERR_ELSE_ELIF_MISSING_IF | ERR_UNEXPECTED_CODE_BLOCK | ERR_EMPTY_BLOCK
| ERR_UNREACHABLE_CODE | ERR_REASSIGN_CONST | ERR_INVALID_EXPR | ERR_NO_DANGLING_EXPR | ERR_REDUNDANT_REASSIGN
| ERR_DIV_BY_ZERO | ERR_NO_NESTED | ERR_EXPECTED_COMMA | ERR_UNCLOSED_FUNC_CALL | ERR_TYPE_NOT_FOUND
| ERR_ALIAS_ALREADY_DEFINED | ERR_ASSIGN_MISSING_EXPR | ERR_RETURN_MISSING_EXPR | ERR_EXPECTED_EXPR
| ERR_NO_CONTROL_CHAR | ERR_INVALID_NUM_PARAMS | ERR_INVALID_COMMENT_START | ERR_ILLEGAL_SEQ_AT | ERR_ILLEGAL_SEQ
| ERR_POW_BAD_TYPE | ERR_EXPECTED_NEWLINE | WARN_VAR_NOT_CONST | WARN_VAR_UNUSED | WARN_FUNC_UNUSED
| WARN_COND_ALWAYS_TRUE | WARN_COND_ALWAYS_FALSE | WARN_FILE_EMPTY | ERR_NESTED_BLOCK_COMMENT | WARN_TRIVIAL_TYPE
| ERR_NOT_NUMERIC | WARN_NO_BOM | ERR_BREAK_NOT_IN_WHILE | ERR_CONTINUE_NOT_IN_WHILE | ERR_NO_MUT_TYPE_ALIAS
| ERR_NO_TYPE_EXPR | ERR_NO_DOUBLE_UNARY | ERR_UNEXPECTED_UNARY_EXPR | ERR_REF_IDENT_ONLY | ERR_MISSING_ASSIGNMENT
| ERR_UNEXPECTED_COMMA | ERR_CANNOT_DEREF | ERR_LOAD_MODULE | ERR_NO_REDEFINE_X_AS_Y.

(** `errors`, skull/common/errors.c:32-110. In a Coq string "" is one double quote. *)
Definition errors (c : ecode) : text :=
  match c with
  | ERR_UNEXPECTED_TOKEN => u "unexpected token: ""%s"""
  | ERR_EOF_NO_BRACKET => u "Reached EOF, expected closing bracket"
  | ERR_NOT_INT => u "expected an integer"
  | ERR_FUNC_TYPE_MISMATCH => u "expected param of type ""%s"", got ""%s"""
  | ERR_EXPECTED_SAME_TYPE => u "expected type ""%s"", got ""%s"""
  | ERR_RUNE_TOO_LONG => u "rune contains too many characters"
  | ERR_BAD_ESCAPE => u "bad escape sequence: ""%s"""
  | ERR_VAR_NOT_FOUND => u "variable ""%s"" not found"
  | ERR_OVERFLOW => u "overflow occurred while parsing ""%s"""
  | ERR_MISSING_OPEN_BRAK => u "missing opening bracket"
  | ERR_MISSING_CLOSING_PAREN => u "missing closing parenthesis"
  | ERR_MISSING_DECLARATION => u "function ""%s"" missing declaration"
  | ERR_MISSING_BLOCK => u "%s statement must be followed by code block"
  | ERR_NO_CLOSING_COMMENT => u "expected closing ""#}"" for block comment"
  | ERR_NO_CLOSING_QUOTE => u "expected closing quote"
  | ERR_NO_VOID_ASSIGN => u "function returning type void cannot be assigned to variable ""%s"""
  | ERR_IMPORT_IDENT => u "expected identifier after ""import"""
  | ERR_VAR_ALREADY_DEFINED => u "variable ""%s"" already defined"
  | ERR_NON_INT_MAIN => u "returning non-int expression ""%s"" from main"
  | ERR_NON_BOOL_EXPR => u "expected boolean expression"
  | ERR_NO_REDEFINE_FUNC => u "cannot redeclare function ""%s"""
  | ERR_ZERO_PARAM_FUNC => u "passing parameter to function that takes zero parameters"
  | ERR_SHADOW_VAR => u "variable ""%s"" shadows existing variable"
  | ERR_EXPECTED_RETURN => u "expected return value in function ""%s"""
  | ERR_NO_VOID_RETURN => u "unexpected return from void function ""%s"""
  | ERR_ELSE_ELIF_MISSING_IF => u "else/elif statement missing preceding if statement"
  | ERR_UNEXPECTED_CODE_BLOCK => u "unexpected code block"
  | ERR_EMPTY_BLOCK => u "code block cannot be empty"
  | ERR_UNREACHABLE_CODE => u "unreachable code"
  | ERR_REASSIGN_CONST => u "cannot reassign const variable ""%s"""
  | ERR_INVALID_EXPR => u "invalid expression near ""%s"""
  | ERR_NO_DANGLING_EXPR => u "expression cannot be used on its own"
  | ERR_REDUNDANT_REASSIGN => u "redundant assignment of variable ""%s"" to itself"
  | ERR_DIV_BY_ZERO => u "division by zero"
  | ERR_NO_NESTED => u "cannot declare nested function ""%s"" as external or exported"
  | ERR_EXPECTED_COMMA => u "expected comma"
  | ERR_UNCLOSED_FUNC_CALL => u "function call missing closing parenthesis"
  | ERR_TYPE_NOT_FOUND => u "type ""%s"" could not be found"
  | ERR_ALIAS_ALREADY_DEFINED => u "alias ""%s"" is already defined"
  | ERR_ASSIGN_MISSING_EXPR => u "expected expression in assignment variable"
  | ERR_RETURN_MISSING_EXPR => u "expected expression in return"
  | ERR_EXPECTED_EXPR => u "expected expression after ""%s"""
  | ERR_NO_CONTROL_CHAR => u "control character cannot be used in rune"
  | ERR_INVALID_NUM_PARAMS => u "invalid number of parameters"
  | ERR_INVALID_COMMENT_START => u "invalid start of comment"
  | ERR_ILLEGAL_SEQ_AT => u "illegal UTF8 sequence at character offset %s"
  | ERR_ILLEGAL_SEQ => u "illegal UTF8 sequence in this region"
  | ERR_POW_BAD_TYPE => u "cannot use type ""%s"" for power operator"
  | ERR_EXPECTED_NEWLINE => u "expected a newline"
  | WARN_VAR_NOT_CONST => u "variable ""%s"" should be constant"
  | WARN_VAR_UNUSED => u "variable ""%s"" is unused"
  | WARN_FUNC_UNUSED => u "function ""%s"" is unused"
  | WARN_COND_ALWAYS_TRUE => u "condition is always true"
  | WARN_COND_ALWAYS_FALSE => u "condition is always false"
  | WARN_FILE_EMPTY => u "file is empty"
  | ERR_NESTED_BLOCK_COMMENT => u "cannot put opening block comment in existing block comment"
  | WARN_TRIVIAL_TYPE => u "explicit type ""%s"" can be trivialy deduced"
  | ERR_NOT_NUMERIC => u "expected a numeric value"
  | WARN_NO_BOM => u "BOM found"
  | ERR_BREAK_NOT_IN_WHILE => u "break must be inside while loop"
  | ERR_CONTINUE_NOT_IN_WHILE => u "continue must be inside while loop"
  | ERR_NO_MUT_TYPE_ALIAS => u "type alias cannot be mutable"
  | ERR_NO_TYPE_EXPR => u "type aliases cannot be used in expressions"
  | ERR_NO_DOUBLE_UNARY => u "cannot use unary operator twice"
  | ERR_UNEXPECTED_UNARY_EXPR => u "unexpected unary operator"
  | ERR_REF_IDENT_ONLY => u "cannot take reference of non-identifier"
  | ERR_MISSING_ASSIGNMENT => u "variable is missing an assignment"
  | ERR_UNEXPECTED_COMMA => u "unexpected comma"
  | ERR_CANNOT_DEREF => u "cannot dereference expression"
  | ERR_LOAD_MODULE => u "could not load module ""%s"": %s"
  | ERR_NO_REDEFINE_X_AS_Y => u "cannot redeclare %s ""%s"" as %s"
  end.

(** Message, skull/common/errors.h:97-108: null is None (0 for `i`). Of a variable only the name
    is used, of a type only the type. *)
Record part := mkpart {
  a_str : option text;
  a_str32 : option text;
  a_tok : option token;
  a_loc : option location;
  a_var : option text;
  a_type : option ty;
  a_real : option text;
  a_i : N }.

(** `{0}` and the designated initializers at the places that report, e.g.
    skull/semantic/symbol.c:24-38. *)
Definition zero_part : part := mkpart None None None None None None None 0.
Definition p_loc (l : option location) : part := mkpart None None None l None None None 0.
Definition p_token (t : option token) : part := mkpart None None t None None None None 0.
Definition p_str (l : option location) (s : text) : part := mkpart (Some s) None None l None None None 0.
Definition p_str32 (l : option location) (s : text) : part := mkpart None (Some s) None l None None None 0.
Definition p_var (l : option location) (s : text) : part := mkpart None None None l (Some s) None None 0.
Definition p_type (l : option location) (t : ty) : part := mkpart None None None l None (Some t) None 0.
Definition p_real (l : option location) (s : text) : part := mkpart None None None l None None (Some s) 0.
Definition p_number (i : N) : part := mkpart None None None None None None None i.

(** `name` of a type, skull/semantic/types.c:199-225. *)
Fixpoint type_name (t : ty) : text :=
  match t with
  | TBool => u "Bool" | TInt => u "Int" | TFloat => u "Float" | TRune => u "Rune" | TStr => u "Str"
  | TVoid => u "Void"
  | TRef t => chr "&" :: type_name t
  end.

(** message_stringify, skull/common/errors.c:235-246, with `msg->real ? msg->real : msg->str`
    (202): what is written for a part. A token whose text cannot be encoded is UB here, the code
    would go on with null. *)
Definition message_stringify (src : text) (p : part) : res (option text) :=
  let or_str real := Ok (match real with Some r => Some r | None => a_str p end) in
  match a_var p with
  | Some n => or_str (Some n)
  | None =>
      match a_type p with
      | Some t => or_str (Some (type_name t))
      | None =>
          match a_str32 p with
          | Some s => or_str (c32stombs s)
          | None =>
              if negb (a_i p =? 0) then or_str (Some (digits 10 (a_i p - 1)))
              else
                match a_tok p, a_real p, a_str p with
                | Some t, None, None => do b <- token_to_mbs_str src t; or_str (Some b)
                | _, _, _ => or_str (a_real p)
                end
          end
      end
  end.

(** The loop of fmt_message_internal, skull/common/errors.c:134-142: the texts in front of the
    first part without one. Running past the end of the array is undefined. *)
Fixpoint message_texts (src : text) (l : list part) : res (list text) :=
  match l with
  | [] => UB
  | p :: r =>
      do t <- message_stringify src p;
      match t with
      | None => Ok []
      | Some t => do ts <- message_texts src r; Ok (t :: ts)
      end
  end.

(** Arguments of uvsnprintf, skull/common/str.c:354-377: strings and unsigned numbers. *)
Inductive arg := AText (t : text) | ANumber (n : N).

(** vsnprintf for the formats of errors.c: `%s` and `%u`. Another conversion, a missing argument
    or one of the wrong type is undefined behaviour; further arguments are ignored. *)
Fixpoint uvsnprintf (f : text) (args : list arg) : res text :=
  match f with
  | [] => Ok []
  | c :: r =>
      if c =? chr "%" then
        match r with
        | d :: r =>
            match args with
            | AText t :: args => if d =? chr "s" then do x <- uvsnprintf r args; Ok (t ++ x) else UB
            | ANumber n :: args => if d =? chr "u" then do x <- uvsnprintf r args; Ok (digits 10 n ++ x) else UB
            | [] => UB
            end
        | [] => UB
        end
      else do x <- uvsnprintf r args; Ok (c :: x)
  end.

(** get_error_msg, skull/common/errors.c:192-224. NULL is then given to `%s` (159-163), which is
    undefined. *)
Definition get_error_msg (texts : list text) (c : ecode) : res text :=
  match texts with
  | [] => Ok (errors c)
  | _ => if (List.length texts <=? 3)%nat then uvsnprintf (errors c) (map AText texts) else UB
  end.

(** get_location_str, skull/common/errors.c:177-190, with `location_str ? location_str : ""`. *)
Definition get_location_str (p : part) : res text :=
  match (match a_tok p with Some t => Some (t_loc t) | None => a_loc p end) with
  | None => Ok []
  | Some l =>
      if l_line l =? 0 then Ok []
      else uvsnprintf (u "line %u column %u: ") [ANumber (l_line l); ANumber (l_column l)]
  end.

(** The prefixes, skull/common/errors.c:22-27 with skull/common/color.h:3-6; 27 is escape. *)
Definition prefix_format (color fatal : bool) : text :=
  match color, fatal with
  | true, false => u "%s: " ++ [27] ++ u "[1m" ++ [27] ++ u "[93mWarning" ++ [27] ++ u "[0m: "
  | true, true => u "%s: " ++ [27] ++ u "[1m" ++ [27] ++ u "[91mCompilation error" ++ [27] ++ u "[0m: "
  | false, false => u "%s: Warning: "
  | false, true => u "%s: Compilation error: "
  end.

(** fmt_message_internal, skull/common/errors.c:127-175. *)
Definition fmt_message (color : bool) (filename src : text) (fatal : bool) (c : ecode) (l : list part) : res text :=
  do texts <- message_texts src l;
  do prefix <- uvsnprintf (prefix_format color fatal) [AText filename];
  match l with
  | [] => UB
  | p :: _ =>
      do location <- get_location_str p;
      do msg <- get_error_msg texts c;
      uvsnprintf (u "%s%s%s" ++ [10]) [AText prefix; AText location; AText msg]
  end.

(** FMT_ERROR and FMT_WARN add `{0}`, skull/common/errors.h:116-122. *)
Definition formatted : Type := bool * ecode * list part.
Definition fmt_error (c : ecode) (l : list part) : formatted := (true, c, l ++ [zero_part]).
Definition fmt_warn (c : ecode) (l : list part) : formatted := (false, c, l ++ [zero_part]).

(** The places of skull/parse/token.c:166, 175, 197 and 232. *)
Definition lex_message (e : lexerr) (l : location) : formatted :=
  fmt_error
    match e with
    | E_INVALID_COMMENT_START => ERR_INVALID_COMMENT_START
    | E_NESTED_BLOCK_COMMENT => ERR_NESTED_BLOCK_COMMENT
    | E_NO_CLOSING_COMMENT => ERR_NO_CLOSING_COMMENT
    | E_NO_CLOSING_QUOTE => ERR_NO_CLOSING_QUOTE
    end [p_loc (Some l)].

(** The places of skull/parse/ast_node.c: with a token at 424, 595, 707, 785 and 855, else with a
    location (119-942), `{0}` at 482. *)
Definition parse_message (m : message) : formatted :=
  let at_ c := fmt_error c [p_loc (m_loc m)] in
  match m_code m with
  | P_UNEXPECTED_TOKEN t => fmt_error ERR_UNEXPECTED_TOKEN [p_token t]
  | P_INVALID_EXPR t => fmt_error ERR_INVALID_EXPR [p_token t]
  | P_EXPECTED_EXPR t => fmt_error ERR_EXPECTED_EXPR [p_token (Some t)]
  | P_EOF_NO_BRACKET => fmt_error ERR_EOF_NO_BRACKET [zero_part]
  | P_MISSING_OPEN_BRAK => at_ ERR_MISSING_OPEN_BRAK
  | P_MISSING_CLOSING_PAREN => at_ ERR_MISSING_CLOSING_PAREN
  | P_IMPORT_IDENT => at_ ERR_IMPORT_IDENT
  | P_UNEXPECTED_CODE_BLOCK => at_ ERR_UNEXPECTED_CODE_BLOCK
  | P_EMPTY_BLOCK => at_ ERR_EMPTY_BLOCK
  | P_EXPECTED_COMMA => at_ ERR_EXPECTED_COMMA
  | P_UNCLOSED_FUNC_CALL => at_ ERR_UNCLOSED_FUNC_CALL
  | P_ASSIGN_MISSING_EXPR => at_ ERR_ASSIGN_MISSING_EXPR
  | P_EXPECTED_NEWLINE => at_ ERR_EXPECTED_NEWLINE
  | P_NO_DOUBLE_UNARY => at_ ERR_NO_DOUBLE_UNARY
  | P_UNEXPECTED_UNARY_EXPR => at_ ERR_UNEXPECTED_UNARY_EXPR
  | P_MISSING_ASSIGNMENT => at_ ERR_MISSING_ASSIGNMENT
  | P_UNEXPECTED_COMMA => at_ ERR_UNEXPECTED_COMMA
  end.

(** symbol_type_to_str, skull/semantic/symbol.c:71-80. *)
Definition symbol_type_to_str (y : symtype) : text :=
  match y with
  | Y_ALIAS => u "type alias" | Y_FUNC => u "function" | Y_VAR => u "variable" | Y_SPACE => u "namespace"
  end.

(** The places of skull/semantic/types.c:46-157 and skull/common/str.c:69. *)
Definition literal_message (t : token) (e : literr) (l : option location) : formatted :=
  match e with
  | Model_Literal.ERR_OVERFLOW => fmt_error ERR_OVERFLOW [p_token (Some t)]
  | Model_Literal.ERR_NO_CONTROL_CHAR => fmt_error ERR_NO_CONTROL_CHAR [p_loc l]
  | Model_Literal.ERR_BAD_ESCAPE what => fmt_error ERR_BAD_ESCAPE [p_str32 l what]
  | Model_Literal.ERR_RUNE_TOO_LONG => fmt_error ERR_RUNE_TOO_LONG [p_loc l]
  | Model_Literal.ERR_ILLEGAL_SEQ => fmt_error ERR_ILLEGAL_SEQ [p_loc l]
  end.

(** `.tok` or token_to_mbs_str of a token that is known to be there,
    skull/semantic/assign.c:92 and 140. *)
Definition first_token (l : list token) : option token := hd_error l.

(** The places of skull/semantic: assign.c:46-174, symbol.c:24-38, func.c:51-207, flow.c:31-254,
    unused.c:28-43, expr.c:77-357, import.c:80, scope.c:95, types.c:268-275. The name at
    assign.c:140 is made from the token there. *)
Definition check_message (src why : text) (m : smsg) : res formatted :=
  let l := sm_loc m in
  let plain c := Ok (fmt_error c [p_loc l]) in
  match sm_code m with
  | S_NOT_INT => plain ERR_NOT_INT
  | S_FUNC_TYPE_MISMATCH want got => Ok (fmt_error ERR_FUNC_TYPE_MISMATCH [p_type l want; p_type None got])
  | S_EXPECTED_SAME_TYPE want got => Ok (fmt_error ERR_EXPECTED_SAME_TYPE [p_type l want; p_type None got])
  | S_VAR_NOT_FOUND n => Ok (fmt_error ERR_VAR_NOT_FOUND [p_real l n])
  | S_MISSING_DECLARATION t => Ok (fmt_error ERR_MISSING_DECLARATION [p_token (Some t)])
  | S_MISSING_BLOCK w => Ok (fmt_error ERR_MISSING_BLOCK [p_str l w])
  | S_NO_VOID_ASSIGN ts =>
      match ts with
      | [] => UB
      | t :: _ => do n <- token_to_mbs_str src t; Ok (fmt_error ERR_NO_VOID_ASSIGN [p_real l n])
      end
  | S_VAR_ALREADY_DEFINED n => Ok (fmt_error ERR_VAR_ALREADY_DEFINED [p_real l n])
  | S_NON_INT_MAIN t => Ok (fmt_error ERR_NON_INT_MAIN [p_token (Some t)])
  | S_NON_BOOL_EXPR => plain ERR_NON_BOOL_EXPR
  | S_NO_REDEFINE_FUNC n => Ok (fmt_error ERR_NO_REDEFINE_FUNC [p_real l n])
  | S_ZERO_PARAM_FUNC => plain ERR_ZERO_PARAM_FUNC
  | S_SHADOW_VAR n => Ok (fmt_error ERR_SHADOW_VAR [p_var l n])
  | S_EXPECTED_RETURN n => Ok (fmt_error ERR_EXPECTED_RETURN [p_real None n])
  | S_NO_VOID_RETURN n => Ok (fmt_error ERR_NO_VOID_RETURN [p_real None n])
  | S_ELSE_ELIF_MISSING_IF => plain ERR_ELSE_ELIF_MISSING_IF
  | S_UNEXPECTED_CODE_BLOCK => plain ERR_UNEXPECTED_CODE_BLOCK
  | S_UNREACHABLE_CODE => plain ERR_UNREACHABLE_CODE
  | S_REASSIGN_CONST t => Ok (fmt_error ERR_REASSIGN_CONST [p_token (Some t)])
  | S_NO_DANGLING_EXPR => plain ERR_NO_DANGLING_EXPR
  | S_REDUNDANT_REASSIGN t => Ok (fmt_error ERR_REDUNDANT_REASSIGN [p_token (Some t)])
  | S_DIV_BY_ZERO => plain ERR_DIV_BY_ZERO
  | S_NO_NESTED t => Ok (fmt_error ERR_NO_NESTED [p_token (Some t)])
  | S_TYPE_NOT_FOUND ts => Ok (fmt_error ERR_TYPE_NOT_FOUND [p_token (first_token ts)])
  | S_ALIAS_ALREADY_DEFINED n => Ok (fmt_error ERR_ALIAS_ALREADY_DEFINED [p_real l n])
  | S_RETURN_MISSING_EXPR => plain ERR_RETURN_MISSING_EXPR
  | S_INVALID_NUM_PARAMS => plain ERR_INVALID_NUM_PARAMS
  | S_POW_BAD_TYPE t => Ok (fmt_error ERR_POW_BAD_TYPE [p_type None t])
  | S_WARN_VAR_NOT_CONST n => Ok (fmt_warn WARN_VAR_NOT_CONST [p_var l n])
  | S_WARN_VAR_UNUSED n => Ok (fmt_warn WARN_VAR_UNUSED [p_var l n])
  | S_WARN_FUNC_UNUSED n => Ok (fmt_warn WARN_FUNC_UNUSED [p_str l n])
  | S_WARN_COND_ALWAYS_TRUE => Ok (fmt_warn WARN_COND_ALWAYS_TRUE [p_loc l])
  | S_WARN_COND_ALWAYS_FALSE => Ok (fmt_warn WARN_COND_ALWAYS_FALSE [p_loc l])
  | S_WARN_TRIVIAL_TYPE t => Ok (fmt_warn WARN_TRIVIAL_TYPE [p_type None t])
  | S_NOT_NUMERIC => plain ERR_NOT_NUMERIC
  | S_BREAK_NOT_IN_WHILE => plain ERR_BREAK_NOT_IN_WHILE
  | S_CONTINUE_NOT_IN_WHILE => plain ERR_CONTINUE_NOT_IN_WHILE
  | S_NO_MUT_TYPE_ALIAS => plain ERR_NO_MUT_TYPE_ALIAS
  | S_NO_TYPE_EXPR => plain ERR_NO_TYPE_EXPR
  | S_REF_IDENT_ONLY => plain ERR_REF_IDENT_ONLY
  | S_CANNOT_DEREF => plain ERR_CANNOT_DEREF
  | S_LOAD_MODULE n => Ok (fmt_error ERR_LOAD_MODULE [p_real None n; p_str None why])
  | S_NO_REDEFINE_X_AS_Y old n new =>
      Ok (fmt_error ERR_NO_REDEFINE_X_AS_Y [p_str l (symbol_type_to_str old); p_real None n; p_str None (symbol_type_to_str new)])
  | S_LITERAL t e => Ok (literal_message t e l)
  end.

(** All messages; `i` of a NoteDecode is one more than the offset. The places
    skull/common/str.c:124, skull/parse/token.c:51, skull/pipeline.c:47
    and skull/real_main.c:56 are here. *)
Definition note_message (src why : text) (n : note) : res formatted :=
  match n with
  | NoteDecode i => Ok (fmt_error ERR_ILLEGAL_SEQ_AT [p_number i])
  | NoteBom => Ok (fmt_warn WARN_NO_BOM [zero_part])
  | NoteLex e l => Ok (lex_message e l)
  | NoteParse m => Ok (parse_message m)
  | NoteCheck m => check_message src why m
  | NoteEmpty true => Ok (fmt_error WARN_FILE_EMPTY [zero_part])
  | NoteEmpty false => Ok (fmt_warn WARN_FILE_EMPTY [zero_part])
  end.

(** write_and_free_errors, skull/common/errors.c:248-265: the messages one behind the other. *)
Fixpoint write_errors (color : bool) (filename src why : text) (l : list note) : res text :=
  match l with
  | [] => Ok []
  | n :: r =>
      do (fatal, c, parts) <- note_message src why n;
      do t <- fmt_message color filename src fatal c parts;
      do x <- write_errors color filename src why r;
      Ok (t ++ x)
  end.

(** `body` of run_pipeline (Model_Pipeline.v): the text that the tokens of a file point into,
    skull/pipeline.c:25-34 and skull/parse/token.c:49-55. *)
Definition body_of (contents : text) : text :=
  match mbstoc32s (c_string contents) with
  | Decoded src => if hd 0 src =? 65279 then tl src else src
  | _ => []
  end.

(** What main (skull/cli.c:30-59) leaves on stderr by write_and_free_errors
    (skull/real_main.c:30). *)
Definition skull_errors (H : host) (fold : iop -> operand H -> operand H -> option (operand H)) (x : outside H)
    (why : text) (color : option text) (argv : list text) : res text :=
  do (_, _, notes) <- skull_main H fold x color argv;
  match cli_main color argv with
  | Go b =>
      match bd_filename b with
      | Some f =>
          write_errors (bd_color b) f
            (body_of match x_read H x f with Some contents => contents | None => [] end) why notes
      | None => Ok []
      end
  | _ => Ok []
  end.
