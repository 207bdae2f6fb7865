(** Lexical structure of the source language, as a user would describe it. *)
From Coq Require Import List Arith NArith Bool Lia Ascii String.
From Verif Require Import Base Model_Token.
Import ListNotations.
Open Scope list_scope.
Open Scope N_scope.

Definition newline : N := 10.
Definition tab : N := 9.
Definition hash : N := chr "#".
Definition backslash : N := 92.
Definition bom : N := 65279.

(** Space, tab, carriage return, newline. *)
Definition blank (c : N) : Prop := In c [chr " "; tab; 13; newline].

(** Characters that are tokens by themselves. *)
Definition delimiter (c : N) : Prop :=
  In c [chr "{"; chr "}"; chr "("; chr ")"; chr ","; newline; chr "&"; chr "*"].

(** The two quotes. *)
Definition quote (c : N) : Prop := In c [39; 34].

(** A source text has no NUL character. *)
Definition source (s : text) : Prop := ~ In 0 s.

(** What may stand between two quotes q: a backslash protects a backslash or a q. *)
Inductive quoted (q : N) : text -> Prop :=
| q_nil : quoted q []
| q_char : forall c s, c <> q -> c <> backslash -> quoted q s -> quoted q (c :: s)
| q_esc : forall c s, c = backslash \/ c = q -> quoted q s -> quoted q (backslash :: c :: s)
| q_back : forall c s, c <> backslash -> c <> q -> quoted q (c :: s) ->
    quoted q (backslash :: c :: s).

(** What may stand between #{ and #}: a # takes the next character with it. *)
Inductive block_body : text -> Prop :=
| bb_nil : block_body []
| bb_char : forall c s, c <> hash -> block_body s -> block_body (c :: s)
| bb_hash : forall c s, c <> chr "}" -> c <> chr "{" -> block_body s ->
    block_body (hash :: c :: s).

(** The text a line comment stops in front of. *)
Definition at_line_end (s : text) : Prop := s = [] \/ exists r, s = newline :: r.

(** A piece of a word, whether it is a comment, and the text behind it. *)
Inductive piece : text -> bool -> text -> Prop :=
| pc_plain : forall c s, ~ blank c -> ~ delimiter c -> ~ quote c -> c <> hash ->
    piece [c] false s
| pc_quoted : forall q body s, quote q -> quoted q body -> piece (q :: body ++ [q]) false s
| pc_line : forall c body s, c = chr " " \/ c = tab -> ~ In newline body ->
    at_line_end s -> piece (hash :: c :: body) true s
| pc_block : forall body s, block_body body ->
    piece (hash :: chr "{" :: body ++ [hash; chr "}"]) true s.

(** A word is a non-empty run of pieces; it is a comment if one of them is. *)
Inductive word : text -> bool -> text -> Prop :=
| wd_one : forall x c s, piece x c s -> word x c s
| wd_more : forall x c w c' s, piece x c (w ++ s) -> word w c' s -> word (x ++ w) (c || c') s.

(** Where a word stops. *)
Definition stops (s : text) : Prop :=
  s = [] \/ exists c r, s = c :: r /\ (blank c \/ delimiter c).

(** Lexemes: a delimiter, or a word (comment or not); with offset and length. *)
Inductive kind := KDelim (c : N) | KWord | KComment.
Record lexeme := mklex { x_begin : nat; x_len : nat; x_kind : kind }.

(** `lexed p s ls`: the text s, which starts at offset p, splits into ls. *)
Inductive lexed : nat -> text -> list lexeme -> Prop :=
| lx_end : forall p, lexed p [] []
| lx_blank : forall p c s ls, blank c -> c <> newline -> lexed (S p) s ls -> lexed p (c :: s) ls
| lx_delim : forall p c s ls, delimiter c -> lexed (S p) s ls ->
    lexed p (c :: s) (mklex p 1 (KDelim c) :: ls)
| lx_word : forall p w cm s ls, word w cm s -> stops s ->
    lexed (p + List.length w) s ls ->
    lexed p (w ++ s) (mklex p (List.length w) (if cm then KComment else KWord) :: ls).

(** Number of newlines in a text. *)
Definition newlines (s : text) : nat := count_occ N.eq_dec s newline.

(** The characters of the last line of a text (those behind its last newline). *)
Fixpoint last_line (s : text) : text :=
  match s with
  | [] => []
  | c :: r => if in_dec N.eq_dec newline s then last_line r else s
  end.

(** `covers p s spans`: the spans (offset, length) are non-empty, in order, disjoint and
    inside s, which starts at offset p; everything outside of them is blank. *)
Fixpoint covers (p : nat) (s : text) (spans : list (nat * nat)) : Prop :=
  match spans with
  | [] => Forall blank s
  | (b, l) :: rest =>
      exists gap w r, s = gap ++ w ++ r /\ Forall blank gap /\ w <> [] /\
        b = (p + List.length gap)%nat /\ l = List.length w /\
        covers (b + l) r rest
  end.

(** No quote and no # between the start of the line and offset b. *)
Definition simple_line (src : text) (b : nat) : Prop :=
  forall x, In x (last_line (firstn b src)) -> ~ quote x /\ x <> hash.

(** The token type of a delimiter; a star gets its type later. *)
Definition delimiter_type : list (N * ttype) :=
  [(chr "{", T_BRACKET_OPEN); (chr "}", T_BRACKET_CLOSE); (chr "(", T_PAREN_OPEN);
   (chr ")", T_PAREN_CLOSE); (chr ",", T_COMMA); (newline, T_NEWLINE); (chr "&", T_OPER_REF);
   (chr "*", T_UNKNOWN)].

(** A token object stands for a lexeme of the text src: same place and length, right
    type, right line, and the right column if the line is simple up to there. *)
Definition stands_for (src : text) (t : token) (x : lexeme) : Prop :=
  t_begin t = Some (x_begin x) /\ t_len t = N.of_nat (x_len x) /\
  match x_kind x with
  | KDelim c => In (c, t_type t) delimiter_type
  | KWord => t_type t = T_UNKNOWN
  | KComment => t_type t = T_COMMENT
  end /\
  l_line (t_loc t) = N.of_nat (1 + newlines (firstn (x_begin x) src)) /\
  (simple_line src (x_begin x) ->
   l_column (t_loc t) = N.of_nat (1 + List.length (last_line (firstn (x_begin x) src)))).

(** The text behind a byte order mark. *)
Definition behind_bom (src : text) : text :=
  match src with
  | c :: r => if c =? bom then r else src
  | [] => []
  end.
Definition has_bom (src : text) : Prop := exists r, src = bom :: r.

(** The token list made for a text which has no lexeme in it: one empty token. *)
Definition empty_token : token := mktok None 0 T_UNKNOWN (mkloc 0 0).

(** Offset and length of a token object. *)
Definition span (t : token) : nat * nat :=
  (match t_begin t with Some b => b | None => O end, N.to_nat (t_len t)).

(** A source text that fits the counters of the tokenizer (32 bit). *)
Definition fits (src : text) : Prop := N.of_nat (List.length src) + 2 < 2 ^ 32.

(** `reached px s`: whole pieces, blanks and delimiters px have been read, s is left. *)
Inductive reached : text -> text -> Prop :=
| re_start : forall s, reached [] s
| re_single : forall px c s, blank c \/ delimiter c -> reached px (c :: s) -> reached (px ++ [c]) s
| re_piece : forall px x cm s, piece x cm s -> reached px (x ++ s) -> reached (px ++ x) s.

(** What is wrong where no piece can be read: a # that starts no comment, a quote that
    is not closed, a block comment with another one in it or without an end. *)
Inductive stuck : text -> lexerr -> Prop :=
| sk_start : forall r, (forall c r', r = c :: r' -> c <> chr " " /\ c <> tab /\ c <> chr "{") ->
    stuck (hash :: r) E_INVALID_COMMENT_START
| sk_quote : forall q r, quote q -> (forall body s, r = body ++ q :: s -> ~ quoted q body) ->
    stuck (q :: r) E_NO_CLOSING_QUOTE
| sk_nested : forall body r, block_body body ->
    stuck (hash :: chr "{" :: body ++ hash :: chr "{" :: r) E_NESTED_BLOCK_COMMENT
| sk_open : forall r,
    (forall body s, r = body ++ hash :: chr "}" :: s -> ~ block_body body) ->
    (forall body s, r = body ++ hash :: chr "{" :: s -> ~ block_body body) ->
    stuck (hash :: chr "{" :: r) E_NO_CLOSING_COMMENT.

(** A location is the right one for offset b: the line, and the column if the line has neither
    quotes nor comments in front of it. *)
Definition right_place (src : text) (b : nat) (l : location) : Prop :=
  l_line l = N.of_nat (1 + newlines (firstn b src)) /\
  (simple_line src b -> l_column l = N.of_nat (1 + List.length (last_line (firstn b src)))).

(** `run_on w s`: w, in front of s, is made of whole pieces, with nothing between them. *)
Inductive run_on : text -> text -> Prop :=
| ro_nil : forall s, run_on [] s
| ro_piece : forall w x cm s, piece x cm s -> run_on w (x ++ s) -> run_on (w ++ x) s.

(** A word may start behind a. *)
Definition fresh (a : text) : Prop := a = [] \/ exists a' c, a = a' ++ [c] /\ (blank c \/ delimiter c).

(** Where an error is reported that is found when px has been read and s is left: at a wrong #,
    in the line of an inner comment, or at the start of the word with the quote or comment that
    has no end. *)
Definition complains_at (src px s : text) (e : lexerr) (l : location) : Prop :=
  match e with
  | E_INVALID_COMMENT_START => right_place src (List.length px) l
  | E_NESTED_BLOCK_COMMENT => exists body r, s = hash :: chr "{" :: body ++ hash :: chr "{" :: r /\ block_body body /\
      l_line l = N.of_nat (1 + newlines (px ++ hash :: chr "{" :: body))
  | E_NO_CLOSING_COMMENT | E_NO_CLOSING_QUOTE => exists a w, px = a ++ w /\ fresh a /\ run_on w s /\
      right_place src (List.length a) l
  end.
