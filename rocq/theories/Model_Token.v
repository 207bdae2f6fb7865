(** Model of the tokenizer, skull/parse/token.c. *)
From Coq Require Import List Arith NArith Bool Lia Ascii String.
From Verif Require Import Base.
Import ListNotations.
Open Scope list_scope.
Open Scope N_scope.

(** TokenType, skull/parse/token.h:7-63. *)
Inductive ttype :=
| T_UNKNOWN
| T_IDENTIFIER | T_NEW_IDENTIFIER | T_DOT_IDENTIFIER
| T_KW_MUT | T_KW_RETURN | T_KW_UNREACHABLE | T_KW_IF | T_KW_ELIF | T_KW_ELSE
| T_KW_WHILE | T_KW_EXTERNAL | T_KW_EXPORT | T_KW_NOOP | T_KW_BREAK | T_KW_CONTINUE
| T_KW_IMPORT | T_KW_NAMESPACE
| T_NEWLINE | T_COMMA | T_BRACKET_OPEN | T_BRACKET_CLOSE | T_PAREN_OPEN | T_PAREN_CLOSE
| T_OPER_EQUAL | T_OPER_PLUS | T_OPER_DASH | T_OPER_STAR | T_OPER_DIV | T_OPER_MOD
| T_OPER_AUTO_EQUAL | T_OPER_NOT | T_OPER_IS | T_OPER_ISNT | T_OPER_AND | T_OPER_OR
| T_OPER_XOR | T_OPER_LESS_THAN | T_OPER_GTR_THAN | T_OPER_LESS_THAN_EQ
| T_OPER_GTR_THAN_EQ | T_OPER_LSHIFT | T_OPER_RSHIFT | T_OPER_POW | T_OPER_REF
| T_INT_CONST | T_FLOAT_CONST | T_BOOL_CONST | T_RUNE_CONST | T_STR_CONST
| T_COMMENT.

(** Location, skull/parse/token.h:68-71. *)
Record location := mkloc { l_line : N; l_column : N }.

(** Token, skull/parse/token.h:84-91. `t_begin` is the offset of `begin` from the
    start of the tokenized text, None for a null pointer. `next` is the list order. *)
Record token := mktok {
  t_begin : option nat;
  t_len : N;
  t_type : ttype;
  t_loc : location }.

(** The errors the tokenizer reports (codes of skull/common/errors.h). *)
Inductive lexerr :=
| E_INVALID_COMMENT_START | E_NESTED_BLOCK_COMMENT | E_NO_CLOSING_COMMENT | E_NO_CLOSING_QUOTE.

(** Outcome of tokenizer code: a value, one error message with its location,
    undefined behaviour, or not enough fuel (excluded by a theorem). *)
Inductive lexres (A : Type) : Type :=
| LOk : A -> lexres A
| LErr : lexerr -> location -> lexres A
| LUB : lexres A
| LFuel : lexres A.
Arguments LOk {A} _.
Arguments LErr {A} _ _.
Arguments LUB {A}.
Arguments LFuel {A}.

(** Sequencing; `if (f(ctx)) return true;` in the C code. *)
Definition lbind {A B} (r : lexres A) (f : A -> lexres B) : lexres B :=
  match r with LOk a => f a | LErr e l => LErr e l | LUB => LUB | LFuel => LFuel end.

Notation "'let!' x := r 'in' k" := (lbind r (fun x => k))
  (at level 200, x pattern, r at level 100, k at level 200).

(** CommentState, skull/parse/token.c:13-17. *)
Inductive comment_state := NO_COMMENT | LINE_COMMENT | BLOCK_COMMENT.

(** TokenizeCtx, skull/parse/token.c:19-26. The `code` pointer is kept as the
    characters in front of it (nearest first) and the characters from it on; `done`
    are the tokens in front of `token` (latest first), `last` is the index of the
    token `last` points at. *)
Record ctx := mkctx {
  c_done : list token;
  c_token : token;
  c_last : nat;
  c_before : text;
  c_rest : text;
  c_line : N;
  c_col : N;
  c_comment : comment_state }.

(** Arithmetic of `unsigned`. *)
Definition w32 (n : N) : N := n mod 2 ^ 32.

(** make_token, skull/parse/token.c:301-303. *)
Definition make_token : token := mktok None 0 T_UNKNOWN (mkloc 0 0).

(** Offset of `code`. *)
Definition c_pos (c : ctx) : nat := List.length (c_before c).

(** `*ctx->code`: 0 at the terminator. *)
Definition cur (c : ctx) : N := hd 0 (c_rest c).

(** `ctx->code[1]`; past the terminator it is undefined. *)
Definition peek (c : ctx) : lexres N :=
  match c_rest c with
  | [] => LUB
  | _ :: r => LOk (hd 0 r)
  end.

(** Updates of single fields. *)
Definition set_token (c : ctx) (t : token) : ctx :=
  mkctx (c_done c) t (c_last c) (c_before c) (c_rest c) (c_line c) (c_col c) (c_comment c).
Definition set_comment (c : ctx) (s : comment_state) : ctx :=
  mkctx (c_done c) (c_token c) (c_last c) (c_before c) (c_rest c) (c_line c) (c_col c) s.

(** `ctx->column++`, e.g. skull/parse/token.c:94. *)
Definition column_inc (c : ctx) : ctx :=
  mkctx (c_done c) (c_token c) (c_last c) (c_before c) (c_rest c)
        (c_line c) (w32 (c_col c + 1)) (c_comment c).

(** `ctx->code++`, e.g. skull/parse/token.c:118; moving past the terminator is
    undefined. *)
Definition code_inc (c : ctx) : lexres ctx :=
  match c_rest c with
  | [] => LUB
  | x :: r => LOk (mkctx (c_done c) (c_token c) (c_last c) (x :: c_before c) r
                         (c_line c) (c_col c) (c_comment c))
  end.

(** `ctx->code--`, skull/parse/token.c:151. *)
Definition code_dec (c : ctx) : lexres ctx :=
  match c_before c with
  | [] => LUB
  | x :: b => LOk (mkctx (c_done c) (c_token c) (c_last c) b (x :: c_rest c)
                         (c_line c) (c_col c) (c_comment c))
  end.

(** chomp, skull/parse/token.c:272-275. *)
Definition chomp (c : ctx) : lexres ctx := code_inc (column_inc c).

(** next_line, skull/parse/token.c:277-280. *)
Definition next_line (c : ctx) : ctx :=
  mkctx (c_done c) (c_token c) (c_last c) (c_before c) (c_rest c)
        (w32 (c_line c + 1)) 0 (c_comment c).

(** is_delimeter, skull/parse/token.c:123-134. *)
Definition is_delimeter (c : N) : bool :=
  (c =? chr "{") || (c =? chr "}") || (c =? chr "(") || (c =? chr ")") ||
  (c =? chr ",") || (c =? 10) || (c =? chr "&") || (c =? chr "*").

(** is_whitespace, skull/parse/token.c:287-289. *)
Definition is_whitespace (c : N) : bool :=
  (c =? chr " ") || (c =? 9) || (c =? 13) || (c =? 10).

(** is_quote, skull/parse/token.c:294-296; 39 is the single, 34 the double quote. *)
Definition is_quote (c : N) : bool := (c =? 39) || (c =? 34).

(** The current position as a location, e.g. skull/parse/token.c:162-165. *)
Definition here (c : ctx) : location := mkloc (c_line c) (c_col c).

(** token_add_info, skull/parse/token.c:266-270. *)
Definition token_add_info (c : ctx) : ctx :=
  let t := c_token c in
  set_token c (mktok (Some (c_pos c)) (t_len t) (t_type t) (here c)).

(** `if (!ctx->token->begin) token_add_info(ctx);`, skull/parse/token.c:144, 213. *)
Definition ensure_begin (c : ctx) : ctx :=
  match t_begin (c_token c) with None => token_add_info c | Some _ => c end.

(** `(unsigned)(ctx->code - ctx->token->begin)`, skull/parse/token.c:77, 111, 241. *)
Definition distance (c : ctx) (b : nat) : N := w32 (N.of_nat (c_pos c - b)).

(** is_valid_comment_start, skull/parse/token.c:183-203. *)
Definition is_valid_comment_start (c : ctx) : lexres ctx :=
  let! p := peek c in
  if (p =? chr " ") || (p =? 9) then LOk (set_comment c LINE_COMMENT)
  else if p =? chr "{" then LOk (set_comment c BLOCK_COMMENT)
  else LErr E_INVALID_COMMENT_START (here c).

(** The do-while loop of iter_comment, skull/parse/token.c:147-172; one unit of fuel
    per round. *)
Fixpoint comment_loop (fuel : nat) (c0 : ctx) : lexres ctx :=
  match fuel with
  | O => LFuel
  | S f =>
      let again (c : ctx) := if cur c =? 0 then LOk c else comment_loop f c in
      let! c := chomp c0 in
      match c_comment c with
      | LINE_COMMENT =>
          if cur c =? 10 then code_dec c else again c
      | BLOCK_COMMENT =>
          if cur c =? chr "#" then
            let! c := chomp c in
            if cur c =? chr "}" then LOk c
            else if cur c =? 10 then again (next_line c)
            else if cur c =? chr "{" then LErr E_NESTED_BLOCK_COMMENT (here c)
            else again c
          else if cur c =? 10 then again (next_line c)
          else again c
      | NO_COMMENT => if cur c =? 10 then again (next_line c) else again c
      end
  end.

(** iter_comment, skull/parse/token.c:141-181. *)
Definition iter_comment (fuel : nat) (c : ctx) : lexres ctx :=
  let! c := is_valid_comment_start c in
  let c := ensure_begin c in
  let! c := chomp c in
  let! c := comment_loop fuel c in
  let t := c_token c in
  match c_comment c with
  | BLOCK_COMMENT =>
      if cur c =? 0 then LErr E_NO_CLOSING_COMMENT (t_loc t)
      else LOk (set_token c (mktok (t_begin t) (t_len t) T_COMMENT (t_loc t)))
  | _ => LOk (set_token c (mktok (t_begin t) (t_len t) T_COMMENT (t_loc t)))
  end.

(** The do-while loop of iter_quote, skull/parse/token.c:215-229. *)
Fixpoint quote_loop (fuel : nat) (quote : N) (c0 : ctx) : lexres ctx :=
  match fuel with
  | O => LFuel
  | S f =>
      let again (c : ctx) := if cur c =? 0 then LOk c else quote_loop f quote c in
      let! c := code_inc c0 in
      if cur c =? 10 then again (next_line c)
      else
        let! escaped :=
          (if cur c =? 92 then let! p := peek c in LOk ((p =? 92) || (p =? quote))
           else LOk false) in
        if escaped : bool then let! c := chomp c in again c
        else if cur c =? quote then LOk c
        else again c
  end.

(** iter_quote, skull/parse/token.c:210-237. *)
Definition iter_quote (fuel : nat) (c : ctx) : lexres ctx :=
  let quote := cur c in
  let c := ensure_begin c in
  let! c := quote_loop fuel quote c in
  if cur c =? 0 then LErr E_NO_CLOSING_QUOTE (t_loc (c_token c)) else LOk c.

(** Storing the length of the current token and setup_next,
    skull/parse/token.c:41-43, 241-242. *)
Definition close_token (c : ctx) (b : nat) : ctx :=
  let t := c_token c in
  mkctx (mktok (t_begin t) (distance c b) (t_type t) (t_loc t) :: c_done c) make_token
        (c_last c) (c_before c) (c_rest c) (c_line c) (c_col c) (c_comment c).

(** The switch in parse_delimiter, skull/parse/token.c:251-260. *)
Definition delim_type (c : N) : ttype :=
  if c =? chr "{" then T_BRACKET_OPEN
  else if c =? chr "}" then T_BRACKET_CLOSE
  else if c =? chr "(" then T_PAREN_OPEN
  else if c =? chr ")" then T_PAREN_CLOSE
  else if c =? chr "," then T_COMMA
  else if c =? 10 then T_NEWLINE
  else if c =? chr "&" then T_OPER_REF
  else T_UNKNOWN.

(** parse_delimiter, skull/parse/token.c:239-264. *)
Definition parse_delimiter (c : ctx) : ctx :=
  let c := match t_begin (c_token c) with Some b => close_token c b | None => c end in
  let t := mktok (Some (c_pos c)) 1 (delim_type (cur c)) (here c) in
  mkctx (t :: c_done c) make_token (List.length (c_done c))
        (c_before c) (c_rest c) (c_line c) (c_col c) (c_comment c).

(** tokenize_inner_loop, skull/parse/token.c:93-121. *)
Definition inner_loop (fuel : nat) (c0 : ctx) : lexres ctx :=
  let c := column_inc c0 in
  let finish (c : ctx) :=
    code_inc (if cur c =? 10 then next_line c else c) in
  if cur c =? chr "#" then
    let! c := iter_comment fuel c in
    if cur c =? 0 then LOk c else finish c
  else
    let! c := (if is_quote (cur c) then iter_quote fuel c else LOk c) in
    if is_delimeter (cur c) then finish (parse_delimiter c)
    else match t_begin (c_token c) with
         | None => finish (if is_whitespace (cur c) then c else token_add_info c)
         | Some b =>
             if (t_len (c_token c) =? 0) && is_whitespace (cur c) then
               let c' := close_token c b in
               finish (mkctx (c_done c') (c_token c') (List.length (c_done c))
                             (c_before c') (c_rest c') (c_line c') (c_col c') (c_comment c'))
             else finish c
         end.

(** The loop of tokenize, skull/parse/token.c:66-73. *)
Fixpoint main_loop (fuel : nat) (c : ctx) : lexres ctx :=
  match fuel with
  | O => LFuel
  | S f =>
      if cur c =? 0 then LOk c
      else let! c' := inner_loop fuel c in main_loop f c'
  end.

(** The end of tokenize, skull/parse/token.c:75-85. Dropping the last token through
    `last->next = NULL` is only right if `last` is the token in front of it. *)
Definition finish_tokens (c : ctx) : lexres (list token) :=
  match t_begin (c_token c) with
  | Some b =>
      let t := c_token c in
      LOk (rev (mktok (Some b) (distance c b) (t_type t) (t_loc t) :: c_done c))
  | None =>
      match c_done c with
      | [] => LOk [c_token c]
      | _ => if (S (c_last c) <=? List.length (c_done c))%nat
             then LOk (firstn (S (c_last c)) (rev (c_done c)))
             else LUB
      end
  end.

(** tokenize behind the byte order mark, skull/parse/token.c:57-85. *)
Definition tokenize_text (src : text) : lexres (list token) :=
  let! c := main_loop (S (List.length src))
              (mkctx [] make_token 0 [] src 1 0 NO_COMMENT) in
  finish_tokens c.

(** What tokenize gives: tokens (with the warning about a byte order mark or not),
    or null with an error or the warning treated as an error. *)
Inductive lexout :=
| Tokens (bom_warning : bool) (ts : list token)
| Rejected (bom_warning : bool) (e : option (lexerr * location))
| LexUB
| LexFuel.

(** tokenize, skull/parse/token.c:48-86, with FMT_WARN of skull/common/errors.h:116-119. *)
Definition tokenize (werror : bool) (src : text) : lexout :=
  let bom := hd 0 src =? 65279 in
  if bom && werror then Rejected true None
  else match tokenize_text (if bom then tl src else src) with
       | LOk ts => Tokens bom ts
       | LErr e l => Rejected bom (Some (e, l))
       | LUB => LexUB
       | LFuel => LexFuel
       end.
