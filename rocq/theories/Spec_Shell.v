(** How `sh` reads a command line (POSIX.1-2017, XCU 2.2, 2.3 and 2.6), as far as words, double
    quotes and the separators of commands go. *)
From Coq Require Import List NArith Bool Ascii String.
From Verif Require Import Base.
Import ListNotations.
Open Scope list_scope.
Open Scope N_scope.

Definition one_of (s : string) (c : N) : bool := existsb (N.eqb c) (u s).

(** Characters that end a word, that end a command, and those whose meaning is not described
    here (expansions, patterns, redirections, other quotes). *)
Definition is_blank (c : N) : bool := (c =? 32) || (c =? 9).
Definition ends_command (c : N) : bool := (c =? chr ";") || (c =? 10).
Definition not_here (c : N) : bool := one_of "$`\'&|<>()#*?[]{}~!" c || (c =? 0).
Definition not_in_quotes (c : N) : bool := one_of "$`\" c || (c =? 0).

(** The word that is being read, the words in front of it, the commands in front of them. *)
Definition end_word (w : option text) (ws : list text) : list text :=
  match w with None => ws | Some w => ws ++ [w] end.
Definition end_command (ws : list text) (cs : list (list text)) : list (list text) :=
  match ws with [] => cs | _ => cs ++ [ws] end.
Definition more (w : option text) (c : N) : option text := Some (match w with None => [c] | Some w => w ++ [c] end).

(** The commands of a line, each a list of words, unless something is used that is not described
    here or a quote is left open. `=` assigns a variable in the first word. *)
Fixpoint read_line (t : text) (quoted : bool) (w : option text) (ws : list text) (cs : list (list text))
    : option (list (list text)) :=
  match t with
  | [] => if quoted then None else Some (end_command (end_word w ws) cs)
  | c :: t =>
      if quoted then
        if c =? 34 then read_line t false w ws cs
        else if not_in_quotes c then None
        else read_line t true (more w c) ws cs
      else if c =? 34 then read_line t true (Some (match w with None => [] | Some w => w end)) ws cs
      else if is_blank c then read_line t false None (end_word w ws) cs
      else if ends_command c then read_line t false None [] (end_command (end_word w ws) cs)
      else if not_here c then None
      else if (c =? chr "=") && (match ws with [] => true | _ => false end) then None
      else read_line t false (more w c) ws cs
  end.
Definition shell (t : text) : option (list (list text)) := read_line t false None [] [].

(** A name that can stand between double quotes, and a word that means itself. *)
Definition quotable (t : text) : Prop := Forall (fun c => not_in_quotes c = false /\ c <> 34) t.
Definition plain_word (t : text) : Prop :=
  t <> [] /\ Forall (fun c => not_here c = false /\ is_blank c = false /\ ends_command c = false /\ c <> 34) t.
