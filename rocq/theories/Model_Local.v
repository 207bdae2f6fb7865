(** Model of setup_locale, skull/common/local.c:17-33, and of decoding in any locale,
    skull/common/str.c:109-140. *)
From Coq Require Import List Arith NArith Bool Ascii String.
From Verif Require Import Base Model_Utf8.
Import ListNotations.
Open Scope list_scope.
Open Scope nat_scope.

(** What mbrtoc32 says about the start of a string, skull/common/str.c:121: a character and
    its length in bytes, an illegal sequence (EILSEQ), or a sequence that goes on behind
    MB_CUR_MAX bytes. *)
Inductive step := SChar (c : N) (len : nat) | SIllegal | SIncomplete.

(** A locale for LC_CTYPE: the name that setlocale returns for it, and mbrtoc32;
    skull/common/local.c:25 and skull/common/str.c:121. *)
Record locale := mklocale { lc_name : text; lc_next : text -> step }.

(** What setlocale(LC_CTYPE, name) does for each name: the locale that it sets and returns,
    None for a null pointer. The empty name is for the locale of the environment;
    skull/common/local.c:25 and 30. *)
Definition system := text -> option locale.

(** setup_locale, skull/common/local.c:17-33. None is exit(1). *)
Definition setup_locale (S : system) : option locale :=
  let default := match S [] with
    | None => true
    | Some l => text_eqb (u "C") (lc_name l)
    end in
  S (if default then u "C.UTF-8" else []).

(** The loop of mbstoc32s, skull/common/str.c:119-134, in a locale; `out` is what has been
    written, in reverse. *)
Fixpoint mbs_loop_in (l : locale) (fuel : nat) (out : text) (str : text) : decoded :=
  match fuel with
  | O => DecodeFuel
  | S f =>
      match str with
      | [] => Decoded (rev out)
      | _ => match lc_next l str with
             | SIllegal => IllegalAt (N.of_nat (List.length out) + 1)
             | SIncomplete => Decoded (rev out)
             | SChar _ O => Decoded (rev out)
             | SChar c len => mbs_loop_in l f (c :: out) (skipn len str)
             end
      end
  end.

(** mbstoc32s, skull/common/str.c:109-140. *)
Definition mbstoc32s_in (l : locale) (str : text) : decoded := mbs_loop_in l (S (List.length str)) [] str.

(** How the bytes of a source file are read: setup_locale, skull/real_main.c:26, comes before
    mbstoc32s, skull/pipeline.c:25. None is exit(1). *)
Definition read_source (S : system) (str : text) : option decoded :=
  match setup_locale S with None => None | Some l => Some (mbstoc32s_in l str) end.
