(** Vocabulary for file and symbol names: paths, base names, joined arguments. *)
From Coq Require Import List NArith String Ascii.
From Verif Require Import Base.
Import ListNotations.
Open Scope list_scope.
Open Scope N_scope.

(** A text without terminator inside, as every C string is. *)
Definition nz (t : text) : Prop := Forall (fun c => c <> 0) t.

(** Shorter than a quarter of the address space, as every C string is. *)
Definition fits (t : text) : Prop := N.of_nat (List.length t) < 2 ^ 62.

(** `base` is the last component of `path`. *)
Definition has_base (path base : text) : Prop :=
  ~ In (chr "/") base /\ (path = base \/ exists dir, path = dir ++ chr "/" :: base).

(** `out` names the hidden file for `path` with extension `ext`: same directory,
    a dot in front of the last component, a dot and the extension behind it. *)
Inductive hidden_sibling (ext : text) : text -> text -> Prop :=
| hs_plain : forall base, ~ In (chr "/") base ->
    hidden_sibling ext base (chr "." :: base ++ chr "." :: ext)
| hs_dir : forall dir base, ~ In (chr "/") base ->
    hidden_sibling ext (dir ++ chr "/" :: base)
                       (dir ++ chr "/" :: chr "." :: base ++ chr "." :: ext).

(** The arguments joined by single blanks. *)
Fixpoint joined (l : list text) : text :=
  match l with
  | [] => []
  | [a] => a
  | a :: l' => a ++ chr " " :: joined l'
  end.
