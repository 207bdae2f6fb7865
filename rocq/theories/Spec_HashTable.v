(** First-writer-wins map, stated on the history of calls only. *)
From Coq Require Import List NArith Bool.
From Verif Require Import Base Model_Vector Model_HashTable.
Import ListNotations.
Open Scope N_scope.

(** The value of the first insertion of a non-null value under `k` in the past
    calls (oldest first), null if there is none. *)
Fixpoint first_added (past : list hcall) (k : text) : ptr :=
  match past with
  | [] => 0
  | HAdd k' p :: r => if text_eq_dec k' k then (if p =? 0 then first_added r k else p)
                      else first_added r k
  | HGet _ :: r => first_added r k
  end.

(** What one call must return, given the past. *)
Definition expected (past : list hcall) (c : hcall) : hobs :=
  match c with
  | HGet k => HPtr (first_added past k)
  | HAdd k p => HBool (negb (p =? 0) && (first_added past k =? 0))
  end.

(** What all calls of a history must return. *)
Fixpoint expected_run (past : list hcall) (cs : list hcall) : list hobs :=
  match cs with
  | [] => []
  | c :: cs' => expected past c :: expected_run (past ++ [c]) cs'
  end.
