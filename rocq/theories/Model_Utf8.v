(** Model of the conversions between multi-byte and UTF-32 strings in
    skull/common/str.c:47-140. *)
From Coq Require Import List Arith NArith Bool Lia Ascii String.
From Verif Require Import Base.
Import ListNotations.
Open Scope list_scope.
Open Scope N_scope.

(** What mbrtoc32 finds at the start of a string: a character and the bytes behind it,
    or an illegal sequence. Models the libc function as it is called in
    skull/common/str.c:121 in a UTF-8 locale (skull/cli.c:31), following the table of
    well formed byte sequences of RFC 3629, section 4. MB_CUR_MAX is at least 4, so the
    "incomplete" result cannot occur: the terminator ends a short sequence. *)
Definition between (lo x hi : N) : bool := (lo <=? x) && (x <=? hi).
Definition mbrtoc32 (s : text) : option (N * text) :=
  match s with
  | [] => None
  | a :: r =>
      if a <=? 127 then Some (a, r)
      else if between 194 a 223 then
        match r with
        | b :: r => if between 128 b 191 then Some (N.land a 31 * 64 + N.land b 63, r) else None
        | [] => None
        end
      else if between 224 a 239 then
        match r with
        | b :: c :: r =>
            let lo := if a =? 224 then 160 else 128 in
            let hi := if a =? 237 then 159 else 191 in
            if between lo b hi && between 128 c 191
            then Some ((N.land a 15 * 64 + N.land b 63) * 64 + N.land c 63, r) else None
        | _ => None
        end
      else if between 240 a 244 then
        match r with
        | b :: c :: d :: r =>
            let lo := if a =? 240 then 144 else 128 in
            let hi := if a =? 244 then 143 else 191 in
            if between lo b hi && between 128 c 191 && between 128 d 191
            then Some (((N.land a 7 * 64 + N.land b 63) * 64 + N.land c 63) * 64 + N.land d 63, r)
            else None
        | _ => None
        end
      else None
  end.

(** What c32rtomb writes for a character, or None for an illegal sequence; the libc
    function as called in skull/common/str.c:66 and skull/semantic/types.c:129. *)
Definition c32rtomb (c : N) : option text :=
  if c <? 128 then Some [c]
  else if c <? 2048 then Some [N.lor 192 (N.shiftr c 6); N.lor 128 (N.land c 63)]
  else if c <? 65536 then
    if between 55296 c 57343 then None
    else Some [N.lor 224 (N.shiftr c 12); N.lor 128 (N.land (N.shiftr c 6) 63); N.lor 128 (N.land c 63)]
  else if c <? 1114112 then
    Some [N.lor 240 (N.shiftr c 18); N.lor 128 (N.land (N.shiftr c 12) 63);
          N.lor 128 (N.land (N.shiftr c 6) 63); N.lor 128 (N.land c 63)]
  else None.

(** mbstoc32s: the decoded text, the error with its position, or out of fuel. *)
Inductive decoded :=
| Decoded (t : text)
| IllegalAt (i : N)
| DecodeFuel.

(** The loop of mbstoc32s, skull/common/str.c:119-134; `out` is the part of `ret` that
    has been written, in reverse. The length mbrtoc32 returns is never 0 here (the
    string is not at its terminator) nor larger than MB_CUR_MAX. *)
Fixpoint mbs_loop (fuel : nat) (out : text) (str : text) : decoded :=
  match fuel with
  | O => DecodeFuel
  | S f =>
      match str with
      | [] => Decoded (rev out)
      | _ => match mbrtoc32 str with
             | None => IllegalAt (N.of_nat (List.length out) + 1)
             | Some (c, r) => mbs_loop f (c :: out) r
             end
      end
  end.

(** mbstoc32s, skull/common/str.c:109-141. *)
Definition mbstoc32s (str : text) : decoded := mbs_loop (S (List.length str)) [] str.

(** c32stombs, skull/common/str.c:56-86: the encoded text, or None (null) with the
    error ERR_ILLEGAL_SEQ. *)
Fixpoint c32stombs (str : text) : option text :=
  match str with
  | [] => Some []
  | c :: r =>
      match c32rtomb c with
      | None => None
      | Some bs => match c32stombs r with
                   | None => None
                   | Some rest => Some (bs ++ rest)
                   end
      end
  end.
