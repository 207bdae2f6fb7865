(** What a user expects of the growable array: it is a list that can be frozen. *)
From Coq Require Import List NArith Bool.
From Verif Require Import Base Model_Vector.
Import ListNotations.
Open Scope N_scope.

(** Contents and whether frozen. *)
Definition labs := (list ptr * bool)%type.

(** The same calls on a plain list. Only the type of calls and of observations is
    shared with the model. *)
Definition lstep (s : labs) (c : vcall) : vobs * labs :=
  let '(l, fr) := s in
  match c with
  | VPush p => (ONone, (if fr then l else l ++ [p], fr))
  | VPop => if fr then (OPtr 0, s) else (OPtr (last l 0), (removelast l, fr))
  | VAt i => (OPtr (nth i l 0), s)
  | VFreeze => (OArray (map Some l), (l, true))
  end.

Fixpoint lrun (s : labs) (cs : list vcall) : list vobs :=
  match cs with
  | [] => []
  | c :: cs' => let '(o, s') := lstep s c in o :: lrun s' cs'
  end.
