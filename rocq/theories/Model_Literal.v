(** Model of the evaluation of literals: skull/semantic/types.c:22-171, 236-262 and the
    escapes in skull/common/str.c:238-338. *)
From Coq Require Import List Arith NArith ZArith Bool Lia Ascii String.
From Verif Require Import Base Model_Token Model_Utf8 Model_Classify.
Import ListNotations.
Open Scope list_scope.
Open Scope N_scope.

(** The messages of skull/common/errors.c that literals can give; `.str32` of
    skull/semantic/types.c:111 and 157. *)
Inductive literr := ERR_OVERFLOW | ERR_NO_CONTROL_CHAR | ERR_BAD_ESCAPE (what : text) | ERR_RUNE_TOO_LONG | ERR_ILLEGAL_SEQ.

(** A value, or a message with `*err = true` (null for eval_str). *)
Inductive lit (A : Type) := Val (a : A) | Bad (e : literr).
Arguments Val {A} _.
Arguments Bad {A} _.

(** eval_bool, skull/semantic/types.c:25-28. *)
Definition eval_bool (t : token) : bool := t_len t =? 4.

(** strip_underscore_num, skull/semantic/types.c:244-262, on the characters in front of
    the terminator; `stop` is 0 for none. With an underscore as last character the
    terminator is skipped and the buffer is left. *)
Fixpoint strip_underscore_num (stop : N) (s : text) : res text :=
  match s with
  | [] => Ok []
  | x :: r =>
      if x =? stop then Ok s
      else if x =? chr "_" then
        match r with
        | [] => UB
        | y :: r' => do t <- strip_underscore_num stop r'; Ok (y :: t)
        end
      else do t <- strip_underscore_num stop r; Ok (x :: t)
  end.

(** token_to_mbs_str, skull/parse/token.c:326-332; null (an illegal sequence) is
    followed at once by all callers modelled here. *)
Definition token_to_mbs_str (src : text) (t : token) : res text :=
  do s <- token_to_string src t;
  match c32stombs s with
  | Some b => Ok b
  | None => UB
  end.

(** What eval_float computes: a special value, or strtod of a text. *)
Inductive fval := F_inf | F_neg_inf | F_nan | F_strtod (s : text).

(** eval_float, skull/semantic/types.c:33-52; strtod and its range error are not modelled,
    the value is the text strtod is given. *)
Definition eval_float (src : text) (t : token) : res fval :=
  do a <- token_cmp src (u "Infinity") t;
  if a then Ok F_inf
  else
    do b <- token_cmp src (u "-Infinity") t;
    if b then Ok F_neg_inf
    else
      do c <- token_cmp src (u "NaN") t;
      if c then Ok F_nan
      else
        do s <- token_to_mbs_str src t;
        do s' <- strip_underscore_num (chr ".") s;
        Ok (F_strtod s').

(** The value of a digit as strtoll (C11 7.22.1.4) sees it; 36 for no digit. Used at
    skull/semantic/types.c:82. *)
Definition digit_value (c : N) : N :=
  if between (chr "0") c (chr "9") then c - chr "0"
  else if between (chr "a") c (chr "z") then c - chr "a" + 10
  else if between (chr "A") c (chr "Z") then c - chr "A" + 10
  else 36.

(** The digit loop of strtoll, skull/semantic/types.c:82. *)
Fixpoint strto_digits (base acc : N) (s : text) : N :=
  match s with
  | c :: r => if digit_value c <? base then strto_digits base (acc * base + digit_value c) r else acc
  | [] => acc
  end.

(** Leading white space, skipped by strtoll, skull/semantic/types.c:82. *)
Fixpoint skip_space (s : text) : text :=
  match s with
  | c :: r => if (c =? 32) || between 9 c 13 then skip_space r else s
  | [] => []
  end.

(** LLONG_MAX and LLONG_MIN of skull/semantic/types.c:85. *)
Definition LLONG_MAX : Z := (2 ^ 63 - 1)%Z.
Definition LLONG_MIN : Z := (- 2 ^ 63)%Z.

(** strtoll as called at skull/semantic/types.c:82: the result and whether errno is
    ERANGE. Follows C11 7.22.1.4: white space, sign, 0x in base 16, digits, and the
    nearest limit if the value does not fit. (Libraries that follow C23 also skip 0b in
    base 2; no text reaching this call has it, see integer_literal_value.) *)
Definition strtoll (s : text) (base : N) : Z * bool :=
  let s := skip_space s in
  let neg := hd 0 s =? chr "-" in
  let s := if neg || (hd 0 s =? chr "+") then tl s else s in
  let s := if (base =? 16) && (hd 0 s =? chr "0") && ((nth 1 s 0 =? chr "x") || (nth 1 s 0 =? chr "X"))
              && (digit_value (nth 2 s 0) <? 16)
           then skipn 2 s else s in
  let v := Z.of_N (strto_digits base 0 s) in
  if neg then if (v >? 2 ^ 63)%Z then (LLONG_MIN, true) else ((- v)%Z, false)
  else if (v >? LLONG_MAX)%Z then (LLONG_MAX, true) else (v, false).

(** eval_integer, skull/semantic/types.c:57-92. *)
Definition eval_integer (src : text) (t : token) : res (lit Z) :=
  do s <- from_ptr src (t_begin t);
  do c <- rd s 0;
  do (off, base) <-
    (if c =? chr "0" then
       do m <- rd s 1;
       Ok (if m =? chr "b" then (2%nat, 2) else if m =? chr "o" then (2%nat, 8)
           else if m =? chr "x" then (2%nat, 16) else (0%nat, 10))
     else Ok (0%nat, 10));
  do num <- token_to_mbs_str src
    (mktok (option_map (fun b => (b + off)%nat) (t_begin t)) (t_len t) T_UNKNOWN (mkloc 0 0));
  do num <- strip_underscore_num 0 num;
  let '(ret, erange) := strtoll num base in
  if ((ret =? LLONG_MAX)%Z || (ret =? LLONG_MIN)%Z) && erange then Ok (Bad ERR_OVERFLOW)
  else Ok (Val ret).

(** c32unhex, skull/common/str.c:241-267. *)
Definition c32unhex (c : N) : N :=
  if between (chr "0") c (chr "9") then c - chr "0"
  else if between (chr "A") c (chr "F") then c - chr "A" + 10
  else if between (chr "a") c (chr "f") then c - chr "a" + 10
  else 0.

(** The loop of escape_hex, skull/common/str.c:319-327; char32_t arithmetic is modulo
    2^32. What the loop stores in `option` is not read if there is a digit. *)
Fixpoint hex_loop (i : nat) (value : N) (s : text) : nat * N :=
  match s with
  | c :: r =>
      if c32isxdigit c && (i <? 8)%nat
      then hex_loop (S i) ((N.shiftl value 4 mod 2 ^ 32 + c32unhex c) mod 2 ^ 32) r
      else (i, value)
  | [] => (i, value)
  end.

(** escape_hex, skull/common/str.c:311-338, on the text behind the x: number of digits
    and value, or None for null. *)
Definition escape_hex (s : text) : option (nat * N) :=
  let '(i, value) := hex_loop 0 0 s in
  if (i =? 0)%nat then None else Some (i, value).

(** c32sunescape, skull/common/str.c:273-309, on the text at the pointer: the value and how
    far the pointer moves, or None when `*error` is set. *)
Definition c32sunescape (s : text) : res (option (N * nat)) :=
  do c <- rd s 0;
  if negb (c =? 92) then Ok (Some (c, 0%nat))
  else
    do e <- rd s 1;
    if e =? 92 then Ok (Some (92, 1%nat))
    else if e =? 34 then Ok (Some (34, 1%nat))
    else if e =? 39 then Ok (Some (39, 1%nat))
    else if e =? chr "0" then Ok (Some (0, 1%nat))
    else if e =? chr "e" then Ok (Some (27, 1%nat))
    else if e =? chr "t" then Ok (Some (9, 1%nat))
    else if e =? chr "r" then Ok (Some (13, 1%nat))
    else if e =? chr "n" then Ok (Some (10, 1%nat))
    else if e =? chr "x" then
      match escape_hex (skipn 2 s) with
      | Some (i, v) => Ok (Some (v, S i))
      | None => Ok None
      end
    else Ok None.

(** `bad_escape` of c32sunescape, skull/common/str.c:302-306, on the text at the pointer, with
    `option[0]` of escape_hex for a text without digits behind the x, str.c:317 and 329-330. The
    source has no NUL in front of its end (skull/common/str.c:119). *)
Definition bad_escape (s : text) : text :=
  match s with
  | _ :: e :: r =>
      92 :: e :: match r with
                 | o :: _ => if (e =? chr "x") && negb ((o =? 39) || (o =? 34)) then [o] else []
                 | [] => []
                 end
  | _ => [92]
  end.

(** iscntrl as called at skull/semantic/types.c:100. C11 7.4 leaves arguments above 255
    undefined; `wide` says what the library does there. *)
Definition iscntrl (wide : N -> res bool) (c : N) : res bool :=
  if c <? 256 then Ok ((c <? 32) || (c =? 127)) else wide c.

(** The strict reading of the C standard: a character above 255 is undefined behaviour
    in skull/semantic/types.c:100. *)
Definition strict (c : N) : res bool := UB.

(** eval_rune, skull/semantic/types.c:97-141. *)
Definition eval_rune (wide : N -> res bool) (src : text) (t : token) : res (lit N) :=
  do s <- from_ptr src (option_map S (t_begin t));
  do c <- rd s 0;
  do cntrl <- iscntrl wide c;
  if cntrl then Ok (Bad ERR_NO_CONTROL_CHAR)
  else
    do r <- c32sunescape s;
    match r with
    | None => Ok (Bad (ERR_BAD_ESCAPE (bad_escape s)))
    | Some (v, adv) =>
        do q <- rd s (adv + 1);
        if negb (q =? 39) then Ok (Bad ERR_RUNE_TOO_LONG)
        else match c32rtomb v with
             | None => Ok (Bad ERR_ILLEGAL_SEQ)
             | Some _ => Ok (Val v)
             end
    end.

(** The loop of eval_str, skull/semantic/types.c:152-167: s is the text at `str`, left is
    how far `str` is in front of the closing quote, out what has been written (reversed),
    cap the number of cells of `copy`. *)
Fixpoint str_loop (fuel : nat) (cap : nat) (s : text) (left : nat) (out : text) : option (res (lit text)) :=
  match fuel with
  | O => None
  | S f =>
      match s, left with
      | _ :: _, S _ =>
          if (List.length out <? cap)%nat then
            match c32sunescape s with
            | UB => Some UB
            | Ok None => Some (Ok (Bad (ERR_BAD_ESCAPE (bad_escape s))))
            | Ok (Some (v, adv)) => str_loop f cap (skipn (adv + 1) s) (left - (adv + 1)) (v :: out)
            end
          else Some UB
      | _, _ =>
          if (List.length out <? cap)%nat then Some (Ok (Val (rev out))) else Some UB
      end
  end.

(** eval_str, skull/semantic/types.c:146-171; None is out of fuel. *)
Definition eval_str (src : text) (t : token) : option (res (lit text)) :=
  let len := N.to_nat (t_len t) in
  match from_ptr src (option_map S (t_begin t)) with
  | UB => Some UB
  | Ok s => str_loop (S len) (len - 1) s (len - 2) []
  end.

(** A C string ends at the first NUL, as c32stombs sees the result of eval_str at
    skull/semantic/expr.c:183. *)
Fixpoint cut_nul (s : text) : text :=
  match s with
  | [] => []
  | c :: r => if c =? 0 then [] else c :: cut_nul r
  end.

(** The string case of validate_const_expr, skull/semantic/expr.c:179-192. *)
Definition const_str (src : text) (t : token) : option (res (lit text)) :=
  match eval_str src t with
  | Some (Ok (Val s)) =>
      match c32stombs (cut_nul s) with
      | Some b => Some (Ok (Val b))
      | None => Some (Ok (Bad ERR_ILLEGAL_SEQ))
      end
  | r => r
  end.
