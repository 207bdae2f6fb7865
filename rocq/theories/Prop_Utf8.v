(** C10: source decoding is faithful. *)
From Coq Require Import List NArith Ascii String.
From Verif Require Import Base Model_Utf8 Spec_Utf8 Proof_Utf8.
Import ListNotations.
Open Scope list_scope.
Open Scope N_scope.

(** Decoding gives the text t exactly when the bytes are the UTF-8 encoding of t. *)
Theorem decode_inverts_utf8 : forall t str, mbstoc32s str = Decoded t <-> utf8 t str.
Proof. exact decode_utf8_l. Qed.
Print Assumptions decode_inverts_utf8.

Example decode_inverts_utf8_ex :
  mbstoc32s [97; 195; 169; 226; 130; 172; 240; 159; 146; 128] = Decoded [97; 233; 8364; 128128].
Proof. reflexivity. Qed.

(** Encoding gives exactly the UTF-8 encoding. *)
Theorem encode_is_utf8 : forall t bs, c32stombs t = Some bs <-> utf8 t bs.
Proof. exact encode_some_l. Qed.
Print Assumptions encode_is_utf8.

Example encode_is_utf8_ex :
  c32stombs [97; 233; 8364; 128128] = Some [97; 195; 169; 226; 130; 172; 240; 159; 146; 128].
Proof. reflexivity. Qed.

(** Encoding fails only for texts with a surrogate or a number above 10FFFF. *)
Theorem encode_total_on_scalars : forall t,
  (Forall scalar t -> exists bs, c32stombs t = Some bs /\ utf8 t bs) /\
  (~ Forall scalar t -> c32stombs t = None).
Proof. exact encode_ok. Qed.
Print Assumptions encode_total_on_scalars.

Example encode_total_on_scalars_ex :
  c32stombs [97; 1114111] = Some [97; 244; 143; 191; 191] /\ c32stombs [97; 55296] = None /\
  c32stombs [1114112] = None.
Proof. repeat split. Qed.

(** Decoding always ends; bytes that are no UTF-8 are rejected with one plus the number
    of characters in front of the first bad sequence. *)
Theorem decode_rejects_at_first_bad_sequence : forall str,
  (exists t, utf8 t str /\ mbstoc32s str = Decoded t) \/
  (exists t good bad, str = good ++ bad /\ utf8 t good /\
     (forall c bs rest, encodes c bs -> bad <> bs ++ rest) /\
     (forall t', ~ utf8 t' str) /\
     mbstoc32s str = IllegalAt (N.of_nat (List.length t) + 1)).
Proof. exact decode_ends_l. Qed.
Print Assumptions decode_rejects_at_first_bad_sequence.

Example decode_rejects_at_first_bad_sequence_ex :
  mbstoc32s [195; 169; 97; 192; 128] = IllegalAt 3 /\   (* overlong form *)
  mbstoc32s [237; 160; 128] = IllegalAt 1 /\            (* surrogate *)
  mbstoc32s [97; 226; 130] = IllegalAt 2.               (* cut short *)
Proof. repeat split. Qed.
