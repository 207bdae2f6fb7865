(** What literals mean. *)
From Coq Require Import List Arith NArith ZArith Ascii String.
From Verif Require Import Base Model_Token Spec_Token Spec_Classify Spec_Utf8 Model_Literal.
Import ListNotations.
Open Scope list_scope.
Open Scope N_scope.

(** The value of one digit. *)
Definition places : list N :=
  map chr ["0"; "1"; "2"; "3"; "4"; "5"; "6"; "7"; "8"; "9"; "a"; "b"; "c"; "d"; "e"; "f"]%char.
Definition upper_places : list N :=
  map chr ["0"; "1"; "2"; "3"; "4"; "5"; "6"; "7"; "8"; "9"; "A"; "B"; "C"; "D"; "E"; "F"]%char.
Definition digit_is (c : N) (v : nat) : Prop :=
  nth_error places v = Some c \/ nth_error upper_places v = Some c.

(** The value of digits with underscores: each digit adds its value times the power of
    the base for the digits behind it. *)
Inductive number (base : Z) : text -> nat -> Z -> Prop :=
| nb_nil : number base [] 0 0
| nb_under : forall s n v, number base s n v -> number base (chr "_" :: s) n v
| nb_digit : forall c d s n v, digit_is c d -> number base s n v ->
    number base (c :: s) (S n) (Z.of_nat d * base ^ Z.of_nat n + v).

(** The value of an integer literal. *)
Inductive int_value : text -> Z -> Prop :=
| iv_dec : forall s n v, digits digit s -> number 10 s n v -> int_value s v
| iv_neg : forall s n v, digits digit s -> number 10 s n v -> int_value (chr "-" :: s) (- v)
| iv_hex : forall s n v, digits hex_digit s -> number 16 s n v -> int_value (u "0x" ++ s) v
| iv_oct : forall s n v, digits octal_digit s -> number 8 s n v -> int_value (u "0o" ++ s) v
| iv_bin : forall s n v, digits binary_digit s -> number 2 s n v -> int_value (u "0b" ++ s) v.

(** Fits a signed integer of 64 bits. *)
Definition int64 (v : Z) : Prop := (- 2 ^ 63 <= v <= 2 ^ 63 - 1)%Z.

(** Behind a word, a separator and then an underscore. *)
Definition under_behind (post : text) : Prop := exists c r, post = c :: chr "_" :: r.

(** The literal has a base prefix. *)
Definition prefixed (w : text) : Prop :=
  exists s, w = u "0x" ++ s \/ w = u "0o" ++ s \/ w = u "0b" ++ s.

(** Escapes: what stands behind the backslash, and the character meant. *)
Definition simple_escapes : list (N * N) :=
  [(92, 92); (34, 34); (39, 39); (chr "0", 0); (chr "e", 27); (chr "t", 9); (chr "r", 13); (chr "n", 10)].

(** `item s c r`: the text s starts with a plain character or an escape for c, r is what
    follows. A hexadecimal escape takes as many digits as it can, at most eight. *)
Inductive item : text -> N -> text -> Prop :=
| it_plain : forall c r, c <> 92 -> item (c :: r) c r
| it_simple : forall e c r, In (e, c) simple_escapes -> item (92 :: e :: r) c r
| it_hex : forall hs n v r, hs <> [] -> (List.length hs <= 8)%nat -> Forall hex_digit hs ->
    number 16 hs n v ->
    (List.length hs = 8%nat \/ forall c r', r = c :: r' -> ~ hex_digit c) ->
    item (92 :: chr "x" :: hs ++ r) (Z.to_N v) r.

(** A whole text read item by item. *)
Inductive unescaped : text -> text -> Prop :=
| un_nil : unescaped [] []
| un_item : forall s c r t, item s c r -> unescaped r t -> unescaped s (c :: t).

(** `wrong s w`: the text s starts with w, which is no escape: the backslash and what is behind
    it, with one character more behind an x if that is no quote. *)
Inductive wrong : text -> text -> Prop :=
| wr_other : forall e r, e <> chr "x" -> ~ In e (map fst simple_escapes) -> wrong (92 :: e :: r) [92; e]
| wr_hex : forall c r, ~ hex_digit c -> c <> 34 -> c <> 39 -> wrong (92 :: chr "x" :: c :: r) [92; chr "x"; c]
| wr_end : forall r, (r = [] \/ exists c r', r = c :: r' /\ (c = 34 \/ c = 39)) -> wrong (92 :: chr "x" :: r) [92; chr "x"].

(** `broken s w`: w is the first thing in the text that is no escape. *)
Inductive broken : text -> text -> Prop :=
| br_here : forall s w, wrong s w -> broken s w
| br_item : forall s c r w, item s c r -> broken r w -> broken s w.

(** Control characters. *)
Definition control (c : N) : Prop := c < 32 \/ c = 127.

(** The text in front of the first NUL. *)
Definition until_nul (s t : text) : Prop :=
  ~ In 0 t /\ (s = t \/ exists r, s = t ++ 0 :: r).
