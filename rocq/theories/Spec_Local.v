(** Locales. *)
From Coq Require Import List Arith NArith Ascii String.
From Verif Require Import Base Spec_Utf8 Model_Local.
Import ListNotations.
Open Scope list_scope.
Open Scope N_scope.

(** The locale reads UTF-8: characters where there is one, else an illegal sequence. *)
Definition utf8_locale (l : locale) : Prop :=
  forall s, s <> [] ->
    (forall c bs rest, encodes c bs -> s = bs ++ rest -> lc_next l s = SChar c (List.length bs)) /\
    ((forall c bs rest, encodes c bs -> s <> bs ++ rest) -> lc_next l s = SIllegal).
(** It reads ASCII characters as what they are. *)
Definition ascii_locale (l : locale) : Prop := forall c r, 0 < c < 128 -> lc_next l (c :: r) = SChar c 1.

(** C.UTF-8 is what its name says, if it is there. *)
Definition honest (S : system) : Prop := forall l, S (u "C.UTF-8") = Some l -> utf8_locale l.
(** The environment asks for no locale, or for one that is not there. *)
Definition unset (S : system) : Prop := S [] = None \/ exists l, S [] = Some l /\ lc_name l = u "C".
(** It asks for one that uses UTF-8. *)
Definition wants_utf8 (S : system) : Prop := exists l, S [] = Some l /\ utf8_locale l.
