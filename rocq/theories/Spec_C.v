(** The part of ISO C11 that generated texts use: tokens (6.4), expressions (6.5) and integer
    constants (6.4.4.1), for a machine with 32 bit `int` and 64 bit `long`. *)
From Coq Require Import List Arith NArith ZArith Bool Ascii String.
From Verif Require Import Base.
Import ListNotations.
Open Scope list_scope.
Open Scope N_scope.

(** * Tokens *)

(** Identifiers and keywords, preprocessing numbers, string literals (what stands between the
    quotes) and punctuators. *)
Inductive ctok := KId (name : text) | KNum (num : text) | KStr (s : text) | KOp (op : text).

Definition is_digit (c : N) : bool := (chr "0" <=? c) && (c <=? chr "9").
Definition is_letter (c : N) : bool :=
  ((chr "a" <=? c) && (c <=? chr "z")) || ((chr "A" <=? c) && (c <=? chr "Z")) || (c =? chr "_").
Definition is_word (c : N) : bool := is_letter c || is_digit c.
Definition is_blank (c : N) : bool := (c =? chr " ") || (c =? 9) || (c =? 10).

(** The longest beginning all of whose characters satisfy p, and the rest. *)
Fixpoint span (p : N -> bool) (t : text) : text * text :=
  match t with
  | [] => ([], [])
  | c :: r => if p c then let '(a, b) := span p r in (c :: a, b) else ([], t)
  end.

(** The rest of a preprocessing number behind the character `prev` (6.4.8). *)
Fixpoint number (prev : N) (t : text) : text * text :=
  match t with
  | [] => ([], [])
  | c :: r =>
      if is_word c || (c =? chr ".") ||
         (((c =? chr "+") || (c =? chr "-")) && existsb (N.eqb prev) (u "eEpP"))
      then let '(a, b) := number c r in (c :: a, b)
      else ([], t)
  end.

(** The rest of a string literal up to its closing quote (6.4.5). *)
Fixpoint literal_end (t : text) : option (text * text) :=
  match t with
  | [] => None
  | c :: r =>
      if c =? chr """" then Some ([], r)
      else if c =? 10 then None
      else if c =? 92 then
        match r with
        | [] => None
        | d :: r' => if d =? 10 then None
                     else match literal_end r' with Some (a, b) => Some (c :: d :: a, b) | None => None end
        end
      else match literal_end r with Some (a, b) => Some (c :: a, b) | None => None end
  end.

(** The punctuators (6.4.6), longest first. *)
Definition punctuators : list text :=
  map u ["%:%:"; "..."; "<<="; ">>=";
         "->"; "++"; "--"; "<<"; ">>"; "<="; ">="; "=="; "!="; "&&"; "||"; "*="; "/="; "%="; "+=";
         "-="; "&="; "^="; "|="; "##"; "<:"; ":>"; "<%"; "%>"; "%:";
         "["; "]"; "("; ")"; "{"; "}"; "."; "&"; "*"; "+"; "-"; "~"; "!"; "/"; "%"; "<"; ">"; "^";
         "|"; "?"; ":"; ";"; "="; ","; "#"]%string.

(** What is left of t behind p. *)
Fixpoint behind (p t : text) : option text :=
  match p, t with
  | [], _ => Some t
  | x :: p, y :: t => if x =? y then behind p t else None
  | _, _ => None
  end.
Fixpoint longest (ps : list text) (t : text) : option (text * text) :=
  match ps with
  | [] => None
  | p :: ps => match behind p t with Some r => Some (p, r) | None => longest ps t end
  end.

(** The tokens of a text: each is the longest that can be taken (6.4, paragraph 4). None if
    the text has other tokens, a comment or an encoding prefix. *)
Fixpoint ctokens (fuel : nat) (t : text) : option (list ctok) :=
  match fuel with
  | O => None
  | S f =>
      match t with
      | [] => Some []
      | c :: r =>
          if is_blank c then ctokens f r
          else if is_letter c then
            let '(a, b) := span is_word t in
            if existsb (text_eqb a) [u "u8"; u "u"; u "U"; u "L"] && (hd 0 b =? chr """") then None
            else option_map (cons (KId a)) (ctokens f b)
          else if is_digit c || ((c =? chr ".") && is_digit (hd 0 r)) then
            let '(a, b) := number c r in option_map (cons (KNum (c :: a))) (ctokens f b)
          else if c =? chr """" then
            match literal_end r with
            | Some (a, b) => option_map (cons (KStr a)) (ctokens f b)
            | None => None
            end
          else if (c =? chr "/") && ((hd 0 r =? chr "/") || (hd 0 r =? chr "*")) then None
          else
            match longest punctuators t with
            | Some (p, b) => option_map (cons (KOp p)) (ctokens f b)
            | None => None
            end
      end
  end.
Definition c_tokens (t : text) : option (list ctok) := ctokens (S (List.length t)) t.

(** Keywords (6.4.1) and the names of types from <stdint.h> and <uchar.h>. *)
Definition c_reserved : list text :=
  map u ["auto"; "break"; "case"; "char"; "const"; "continue"; "default"; "do"; "double"; "else";
         "enum"; "extern"; "float"; "for"; "goto"; "if"; "inline"; "int"; "long"; "register";
         "restrict"; "return"; "short"; "signed"; "sizeof"; "static"; "struct"; "switch"; "typedef";
         "union"; "unsigned"; "void"; "volatile"; "while"; "_Alignas"; "_Alignof"; "_Atomic";
         "_Bool"; "_Complex"; "_Generic"; "_Imaginary"; "_Noreturn"; "_Static_assert";
         "_Thread_local"; "__asm__";
         "int8_t"; "int16_t"; "int32_t"; "int64_t"; "uint8_t"; "uint16_t"; "uint32_t"; "uint64_t";
         "int_least8_t"; "int_least16_t"; "int_least32_t"; "int_least64_t"; "uint_least8_t";
         "uint_least16_t"; "uint_least32_t"; "uint_least64_t"; "int_fast8_t"; "int_fast16_t";
         "int_fast32_t"; "int_fast64_t"; "uint_fast8_t"; "uint_fast16_t"; "uint_fast32_t";
         "uint_fast64_t"; "intptr_t"; "uintptr_t"; "intmax_t"; "uintmax_t"; "size_t"; "mbstate_t";
         "char16_t"; "char32_t"]%string.

(** An identifier that can name a variable or a function. *)
Definition c_name (n : text) : bool :=
  match n with
  | [] => false
  | c :: _ => is_letter c && forallb is_word n && negb (existsb (text_eqb n) c_reserved)
  end.

(** * Expressions *)

Inductive cexp :=
| CId (name : text)
| CNum (num : text)
| CStr (s : text)
| CCall (f : cexp) (args : list cexp)
| CUn (op : text) (e : cexp)
| CBin (op : text) (a b : cexp).

(** The binary operators by level: multiplicative-expression (6.5.5) is 3, up to
    logical-OR-expression (6.5.14), which is 12. *)
Definition level_of (op : text) : option nat :=
  if existsb (text_eqb op) (map u ["*"; "/"; "%"]%string) then Some 3%nat
  else if existsb (text_eqb op) (map u ["+"; "-"]%string) then Some 4%nat
  else if existsb (text_eqb op) (map u ["<<"; ">>"]%string) then Some 5%nat
  else if existsb (text_eqb op) (map u ["<"; ">"; "<="; ">="]%string) then Some 6%nat
  else if existsb (text_eqb op) (map u ["=="; "!="]%string) then Some 7%nat
  else if text_eqb op (u "&") then Some 8%nat
  else if text_eqb op (u "^") then Some 9%nat
  else if text_eqb op (u "|") then Some 10%nat
  else if text_eqb op (u "&&") then Some 11%nat
  else if text_eqb op (u "||") then Some 12%nat
  else None.

(** unary-operator (6.5.3). *)
Definition unary_ops : list text := map u ["&"; "*"; "+"; "-"; "~"; "!"]%string.

(** The grammar of expressions, 6.5.1 to 6.5.14 (levels 0 primary, 1 postfix, 2 unary and
    cast). Casts, `sizeof`, `++`, `--`, members and subscripts are left out, as are the
    operators above level 12; generated expressions have none of these. *)
Inductive reads : nat -> list ctok -> cexp -> Prop :=
| R_id : forall n, c_name n = true -> reads 0 [KId n] (CId n)
| R_num : forall n, reads 0 [KNum n] (CNum n)
| R_str : forall s, reads 0 [KStr s] (CStr s)
| R_paren : forall ts e, reads 12 ts e -> reads 0 (KOp (u "(") :: ts ++ [KOp (u ")")]) e
| R_call : forall ts e args es, reads 1 ts e -> reads_args args es ->
    reads 1 (ts ++ KOp (u "(") :: args ++ [KOp (u ")")]) (CCall e es)
| R_un : forall op ts e, In op unary_ops -> reads 2 ts e -> reads 2 (KOp op :: ts) (CUn op e)
| R_bin : forall n op a b ea eb, level_of op = Some (S n) -> reads (S n) a ea -> reads n b eb ->
    reads (S n) (a ++ KOp op :: b) (CBin op ea eb)
| R_up : forall n ts e, (n < 12)%nat -> reads n ts e -> reads (S n) ts e
with reads_args : list ctok -> list cexp -> Prop :=
| R_none : reads_args [] []
| R_some : forall ts es, reads_list ts es -> reads_args ts es
with reads_list : list ctok -> list cexp -> Prop :=
| R_last : forall ts e, reads 12 ts e -> reads_list ts [e]
| R_more : forall ts e ts' es, reads 12 ts e -> reads_list ts' es ->
    reads_list (ts ++ KOp (u ",") :: ts') (e :: es).

(** The text is an expression of C with exactly one reading, which is e. *)
Definition is_c_expression (t : text) (e : cexp) : Prop :=
  exists ts, c_tokens t = Some ts /\ reads 12 ts e /\ forall e', reads 12 ts e' -> e' = e.

(** * Integer constants *)

Inductive ctype := CInt | CUInt | CLong | CULong.

Definition c_digit (c : N) : option N :=
  if is_digit c then Some (c - chr "0")
  else if (chr "a" <=? c) && (c <=? chr "f") then Some (c - chr "a" + 10)
  else if (chr "A" <=? c) && (c <=? chr "F") then Some (c - chr "A" + 10)
  else None.
(** The value of digits in a base. *)
Fixpoint c_digits (base acc : N) (t : text) : option N :=
  match t with
  | [] => Some acc
  | c :: r => match c_digit c with
              | Some d => if d <? base then c_digits base (base * acc + d) r else None
              | None => None
              end
  end.

(** The first type of the list that can hold the value (6.4.4.1, paragraph 5). *)
Definition fits (ty : ctype) (n : N) : bool :=
  match ty with
  | CInt => n <? 2 ^ 31 | CUInt => n <? 2 ^ 32 | CLong => n <? 2 ^ 63 | CULong => n <? 2 ^ 64
  end.
Definition first_type (tys : list ctype) (n : N) : option (N * ctype) :=
  match find (fun t => fits t n) tys with Some t => Some (n, t) | None => None end.

(** The suffix L, if any. *)
Definition split_suffix (t : text) : text * bool :=
  match rev t with
  | c :: r => if c =? chr "L" then (rev r, true) else (t, false)
  | [] => (t, false)
  end.

(** Value and type of an integer constant without suffix or with the suffix L. *)
Definition c_constant (t : text) : option (N * ctype) :=
  let '(t, long) := split_suffix t in
  match t with
  | [] => None
  | 48 :: 120 :: d :: h =>
      match c_digits 16 0 (d :: h) with
      | Some n => first_type (if long then [CLong; CULong] else [CInt; CUInt; CLong; CULong]) n
      | None => None
      end
  | 48 :: o =>
      match c_digits 8 0 o with
      | Some n => first_type (if long then [CLong; CULong] else [CInt; CUInt; CLong; CULong]) n
      | None => None
      end
  | _ =>
      match c_digits 10 0 t with
      | Some n => first_type (if long then [CLong] else [CInt; CLong]) n
      | None => None
      end
  end.
