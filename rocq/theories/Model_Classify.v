(** Model of the token classifier, skull/parse/classify.c. *)
From Coq Require Import List Arith NArith Bool Lia Ascii String.
From Verif Require Import Base Model_Token Model_Utf8.
Import ListNotations.
Open Scope list_scope.
Open Scope N_scope.

(** Reading `p[i]` of a C string (0 at the terminator, undefined behind it). *)
Definition rd (s : text) (i : nat) : res N :=
  if (i <? List.length s)%nat then Ok (nth i s 0)
  else if (i =? List.length s)%nat then Ok 0 else UB.

(** The text a pointer into the source points at; following null is undefined. *)
Definition from_ptr (src : text) (b : option nat) : res text :=
  match b with
  | Some b => if (b <=? List.length src)%nat then Ok (skipn b src) else UB
  | None => UB
  end.

(** token_to_string, skull/parse/token.c:310-319: at most len characters from begin on
    (c32sncpy, skull/common/str.c:35-45, copies up to len+1 and stops at the
    terminator; the last cell is then overwritten). *)
Definition token_to_string (src : text) (t : token) : res text :=
  do s <- from_ptr src (t_begin t);
  Ok (firstn (N.to_nat (t_len t)) s).

(** c32sncmp, skull/common/str.c:162-175. *)
Fixpoint c32sncmp (a b : text) (n : nat) : bool :=
  match a, b, n with
  | x :: a', y :: b', S n' => if x =? y then c32sncmp a' b' n' else false
  | _, _, _ => (n =? 0)%nat
  end.

(** token_cmp, skull/parse/token.c:337-342. *)
Definition token_cmp (src : text) (str : text) (t : token) : res bool :=
  if N.of_nat (List.length str) =? t_len t then
    do s <- from_ptr src (t_begin t);
    Ok (c32sncmp str s (N.to_nat (t_len t)))
  else Ok false.

(** c32isdigit, c32isxdigit, c32isalnum, skull/common/str.c:180-200. *)
Definition c32isdigit (c : N) : bool := between (chr "0") c (chr "9").
Definition c32isxdigit (c : N) : bool :=
  between (chr "0") c (chr "9") || between (chr "a") c (chr "f") || between (chr "A") c (chr "F").
Definition c32isalnum (c : N) : bool :=
  c32isdigit c || between (chr "A") c (chr "Z") || between (chr "a") c (chr "z").

(** The loop of EXHAUST_STR_INT, skull/parse/classify.c:192-198: None if it returns
    false, otherwise the character in front of the terminator. *)
Fixpoint exhaust_loop (cond : N -> bool) (was : bool) (prev : N) (s : text) : option N :=
  match s with
  | [] => Some prev
  | c :: r =>
      if was && (c =? chr "_") then None
      else if negb (cond c) && negb (c =? chr "_") then None
      else exhaust_loop cond (c =? chr "_") c r
  end.

(** EXHAUST_STR_INT, skull/parse/classify.c:190-199. *)
Definition exhaust_int (cond : N -> bool) (prev : N) (s : text) : bool :=
  if hd 0 s =? chr "_" then false
  else match exhaust_loop cond false prev s with
       | None => false
       | Some l => negb (l =? chr "_")
       end.

(** is_constant_integer_str, skull/parse/classify.c:213-239. *)
Definition is_constant_integer_str (s : text) : bool :=
  let decimal :=
    let s' := if hd 0 s =? chr "-" then tl s else s in
    match s' with
    | [] => false
    | _ => exhaust_int c32isdigit 0 s'
    end in
  match s with
  | z :: m :: d :: r =>
      if (z =? chr "0") && negb (c32isdigit m) then
        if m =? chr "x" then exhaust_int c32isxdigit m (d :: r)
        else if m =? chr "b" then exhaust_int (fun c => (c =? chr "0") || (c =? chr "1")) m (d :: r)
        else if m =? chr "o" then exhaust_int (fun c => between (chr "0") c (chr "7")) m (d :: r)
        else false
      else decimal
  | _ => decimal
  end.

(** The loop of is_constant_float_str, skull/parse/classify.c:252-262: None if it
    returns false, otherwise the character in front of the point (None: there is no
    such character in the buffer) and the text from the point on. *)
Fixpoint float_loop (was : bool) (prev : option N) (s : text) : option (option N * text) :=
  match s with
  | [] => Some (prev, [])
  | c :: r =>
      if c =? chr "." then Some (prev, s)
      else if (was && (c =? chr "_")) || (negb (c32isdigit c) && negb (c =? chr "_")) then None
      else float_loop (c =? chr "_") (Some c) r
  end.

(** is_constant_float_str, skull/parse/classify.c:246-269; `str[-1]` in line 263 is
    undefined when nothing is in front of it. *)
Definition is_constant_float_str (s : text) : res bool :=
  if text_eqb (u "NaN") s then Ok true
  else
    let neg := hd 0 s =? chr "-" in
    let s' := if neg then tl s else s in
    if text_eqb (u "Infinity") s' then Ok true
    else if (hd 0 s' =? chr ".") || (hd 0 s' =? chr "_") then Ok false
    else match float_loop false (if neg then Some (chr "-") else None) s' with
         | None => Ok false
         | Some (None, _) => UB
         | Some (Some p, rest) =>
             if p =? chr "_" then Ok false
             else match rest with
                  | [] => Ok false
                  | [_] => Ok false
                  | _ :: frac => Ok (forallb c32isdigit frac)
                  end
         end.

(** is_constant_bool_str, skull/parse/classify.c:277-279. *)
Definition is_constant_bool_str (s : text) : bool :=
  text_eqb (u "true") s || text_eqb (u "false") s.

(** is_constant_rune_str, skull/parse/classify.c:287-297. *)
Definition is_constant_rune_str (s : text) : bool :=
  let len := List.length s in
  if negb (hd 0 s =? 39) || negb (nth (len - 1) s 0 =? 39) then false
  else if (4 <=? len)%nat && (len <=? 12)%nat then nth 1 s 0 =? 92
  else (len =? 3)%nat.

(** is_constant_str_str, skull/parse/classify.c:304-310. *)
Definition is_constant_str_str (s : text) : bool :=
  let len := List.length s in
  (2 <=? len)%nat && (hd 0 s =? 34) && (nth (len - 1) s 0 =? 34).

(** The loop of is_valid_identifier_str, skull/parse/classify.c:321-339. *)
Fixpoint identifier_loop (s : text) : bool :=
  match s with
  | [] => true
  | c :: r =>
      if c =? chr ":" then match r with [] => true | _ => false end
      else if c =? chr "." then match r with [] => false | _ => identifier_loop r end
      else if negb (c =? chr "_") && negb (c32isalnum c) then false
      else identifier_loop r
  end.

(** is_valid_identifier_str, skull/parse/classify.c:315-340. *)
Definition is_valid_identifier_str (s : text) : bool :=
  let c := hd 0 s in
  if (c <? chr "A") || ((chr "Z" <? c) && (c <? chr "a")) || (chr "z" <? c) then false
  else identifier_loop (tl s).

(** The names in TYPES_BUILTIN, skull/semantic/types.c:219-234. *)
Definition builtin_names : list text :=
  [u "Bool"; u "Int"; u "Float"; u "Rune"; u "Str"; u "Void"].

(** is_type_str, skull/parse/classify.c:159-166: find_builtin_type
    (skull/semantic/types.c:187-197) on the encoded name; strcmp of null is undefined. *)
Definition is_type_str (s : text) : res bool :=
  match c32stombs s with
  | None => UB
  | Some b => Ok (existsb (text_eqb b) builtin_names)
  end.

(** is_reserved_str, skull/parse/classify.c:171-188. *)
Definition reserved_words : list text :=
  [u "mut"; u "return"; u "unreachable"; u "if"; u "elif"; u "else"; u "while";
   u "external"; u "export"; u "noop"; u "break"; u "continue"; u "import";
   u "namespace"; u "mod"; u "not"; u "is"; u "isnt"; u "and"; u "or"; u "xor";
   u "Infinity"; u "NaN"; u "true"; u "false"].
Definition is_reserved_str (s : text) : bool := existsb (fun w => text_eqb w s) reserved_words.

(** The TOKEN_TRY_STR chain, skull/parse/classify.c:81-106. *)
Definition keywords : list (text * ttype) :=
  [(u "mut", T_KW_MUT); (u "return", T_KW_RETURN); (u "unreachable", T_KW_UNREACHABLE);
   (u "if", T_KW_IF); (u "elif", T_KW_ELIF); (u "else", T_KW_ELSE); (u "while", T_KW_WHILE);
   (u "external", T_KW_EXTERNAL); (u "export", T_KW_EXPORT); (u "noop", T_KW_NOOP);
   (u "break", T_KW_BREAK); (u "continue", T_KW_CONTINUE); (u "import", T_KW_IMPORT);
   (u "namespace", T_KW_NAMESPACE); (u "mod", T_OPER_MOD); (u ":=", T_OPER_AUTO_EQUAL);
   (u "not", T_OPER_NOT); (u "is", T_OPER_IS); (u "isnt", T_OPER_ISNT);
   (u "and", T_OPER_AND); (u "or", T_OPER_OR); (u "xor", T_OPER_XOR);
   (u "<=", T_OPER_LESS_THAN_EQ); (u ">=", T_OPER_GTR_THAN_EQ);
   (u "<<", T_OPER_LSHIFT); (u ">>", T_OPER_RSHIFT)].

(** Walking down that chain. *)
Fixpoint try_str (src : text) (t : token) (l : list (text * ttype)) : res (option ttype) :=
  match l with
  | [] => Ok None
  | (w, ty) :: l' =>
      do e <- token_cmp src w t;
      if e then Ok (Some ty) else try_str src t l'
  end.

(** The switch over tokens of one character, skull/parse/classify.c:63-75. *)
Definition single_char (c : N) : option ttype :=
  if c =? chr "=" then Some T_OPER_EQUAL
  else if c =? chr "+" then Some T_OPER_PLUS
  else if c =? chr "-" then Some T_OPER_DASH
  else if c =? chr "*" then Some T_OPER_STAR
  else if c =? chr "/" then Some T_OPER_DIV
  else if c =? chr "<" then Some T_OPER_LESS_THAN
  else if c =? chr ">" then Some T_OPER_GTR_THAN
  else if c =? chr "^" then Some T_OPER_POW
  else None.

(** `token->type = ty` and `token->len--`. *)
Definition set_type (t : token) (ty : ttype) : token := mktok (t_begin t) (t_len t) ty (t_loc t).
Definition set_len (t : token) (n : N) : token := mktok (t_begin t) n (t_type t) (t_loc t).

(** The identifier branch, skull/parse/classify.c:114-139. *)
Definition classify_identifier (src str : text) (t : token) : res token :=
  let dot := existsb (fun c => c =? chr ".") str in
  let ty := if dot then T_DOT_IDENTIFIER else T_IDENTIFIER in
  if t_len t =? 0 then UB
  else
    do s <- from_ptr src (t_begin t);
    do last <- rd s (N.to_nat (t_len t) - 1);
    if last =? chr ":" then
      if dot then Ok (set_type t T_UNKNOWN)
      else
        let name := firstn (N.to_nat (t_len t) - 1) str in
        if is_reserved_str name then Ok (set_type t T_UNKNOWN)
        else
          do ty <- is_type_str name;
          if ty then Ok (set_type t T_UNKNOWN)
          else Ok (set_len (set_type t T_NEW_IDENTIFIER) (t_len t - 1))
    else Ok (set_type t ty).

(** classify_token, skull/parse/classify.c:58-141. *)
Definition classify_token (src : text) (t : token) : res token :=
  match t_type t with
  | T_UNKNOWN =>
      do one <- (if t_len t =? 1
                 then do s <- from_ptr src (t_begin t); do c <- rd s 0; Ok (single_char c)
                 else Ok None);
      match one with
      | Some ty => Ok (set_type t ty)
      | None =>
          do str <- token_to_string src t;
          do kw <- try_str src t keywords;
          match kw with
          | Some ty => Ok (set_type t ty)
          | None =>
              if is_constant_integer_str str then Ok (set_type t T_INT_CONST)
              else
                do fl <- is_constant_float_str str;
                if fl then Ok (set_type t T_FLOAT_CONST)
                else if is_constant_bool_str str then Ok (set_type t T_BOOL_CONST)
                else if is_constant_rune_str str then Ok (set_type t T_RUNE_CONST)
                else if is_constant_str_str str then Ok (set_type t T_STR_CONST)
                else if is_valid_identifier_str str then classify_identifier src str t
                else Ok t
          end
      end
  | _ => Ok t
  end.

(** classify_tokens, skull/parse/classify.c:149-154. *)
Fixpoint classify_tokens (src : text) (ts : list token) : res (list token) :=
  match ts with
  | [] => Ok []
  | t :: r =>
      do t' <- classify_token src t;
      do r' <- classify_tokens src r;
      Ok (t' :: r')
  end.
