(** Shared vocabulary: characters, texts and run outcomes. *)
From Coq Require Import List Arith NArith ZArith Ascii String Bool Lia.
Import ListNotations.
Open Scope N_scope.

(** A character is its code (byte value for `char`, code point for `char32_t`).
    A text is the list of the characters in front of the terminator of a C string.
    Models C strings as used all over /repo/skull, e.g. skull/common/str.c:18-102. *)
Definition text := list N.

(** Code of an ASCII character; used for the character constants of the C code,
    e.g. skull/parse/token.c:123-134. *)
Definition chr (a : ascii) : N := N_of_ascii a.

(** A C string or U"" literal, e.g. skull/parse/classify.c:97-130. *)
Definition u (s : string) : text := map N_of_ascii (list_ascii_of_string s).

(** Outcome of code that can reach undefined behaviour (null access, access
    outside an object, read of an uninitialised cell). `UB` is never a value. *)
Inductive res (A : Type) : Type :=
| Ok : A -> res A
| UB : res A.
Arguments Ok {A} _.
Arguments UB {A}.

(** Sequencing of outcomes; corresponds to `;` in C. *)
Definition bind {A B} (r : res A) (f : A -> res B) : res B :=
  match r with Ok a => f a | UB => UB end.

Notation "'do' x <- r ; k" := (bind r (fun x => k))
  (at level 200, x pattern, r at level 100, k at level 200).

(** Equality of texts; models `strcmp(a, b) == 0` and c32scmp
    (skull/common/str.c:148-157) on well formed strings. *)
Fixpoint text_eqb (a b : text) : bool :=
  match a, b with
  | [], [] => true
  | x :: a', y :: b' => N.eqb x y && text_eqb a' b'
  | _, _ => false
  end.

Lemma text_eqb_eq : forall a b, text_eqb a b = true <-> a = b.
Proof.
  induction a as [|x a IH]; destruct b as [|y b]; cbn; split; intro H; try easy.
  - apply andb_true_iff in H as [H1 H2]. apply N.eqb_eq in H1. apply IH in H2. congruence.
  - inversion H; subst. rewrite N.eqb_refl. cbn. now apply IH.
Qed.

Lemma text_eqb_refl : forall a, text_eqb a a = true.
Proof. intro a. now apply text_eqb_eq. Qed.

Lemma text_eqb_neq : forall a b, text_eqb a b = false <-> a <> b.
Proof.
  intros a b. rewrite <- (text_eqb_eq a b). now destruct (text_eqb a b).
Qed.

Definition text_eq_dec : forall a b : text, {a = b} + {a <> b} := list_eq_dec N.eq_dec.
