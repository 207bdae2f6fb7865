(** UTF-8 by RFC 3629, section 3: the bits of the code point are spread over the bytes,
    shortest form only, no surrogates, nothing above 10FFFF. *)
From Coq Require Import List NArith.
From Verif Require Import Base.
Import ListNotations.
Open Scope N_scope.

Inductive encodes : N -> text -> Prop :=
| enc1 : forall c, c < 128 -> encodes c [c]
| enc2 : forall x y, y < 64 -> 128 <= x * 64 + y < 2048 ->
    encodes (x * 64 + y) [192 + x; 128 + y]
| enc3 : forall x y z, y < 64 -> z < 64 -> 2048 <= x * 4096 + y * 64 + z < 65536 ->
    ~ (55296 <= x * 4096 + y * 64 + z <= 57343) ->
    encodes (x * 4096 + y * 64 + z) [224 + x; 128 + y; 128 + z]
| enc4 : forall w x y z, x < 64 -> y < 64 -> z < 64 ->
    65536 <= w * 262144 + x * 4096 + y * 64 + z <= 1114111 ->
    encodes (w * 262144 + x * 4096 + y * 64 + z) [240 + w; 128 + x; 128 + y; 128 + z].

(** A code point that is not a surrogate (a Unicode scalar value). *)
Definition scalar (c : N) : Prop := c <= 1114111 /\ ~ (55296 <= c <= 57343).

(** A byte sequence and the text it is the encoding of. *)
Inductive utf8 : text -> text -> Prop :=
| utf8_nil : utf8 [] []
| utf8_cons : forall c bs t rest, encodes c bs -> utf8 t rest -> utf8 (c :: t) (bs ++ rest).

(** A C string of bytes. *)
Definition bytes (s : text) : Prop := Forall (fun b => 0 < b < 256) s.
