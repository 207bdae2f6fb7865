(** What requests for types mean, without objects and tables. *)
From Coq Require Import List Arith NArith Bool String.
From Verif Require Import Base Model_Sem Model_Types.
Import ListNotations.
Open Scope list_scope.
Open Scope N_scope.

(** The name of a type as written. *)
Fixpoint spelled (t : ty) : text :=
  match t with
  | TBool => u "Bool" | TInt => u "Int" | TFloat => u "Float"
  | TRune => u "Rune" | TStr => u "Str" | TVoid => u "Void"
  | TRef t => u "&" ++ spelled t
  end.

(** The builtin type with a name. *)
Definition builtin_called (name : text) : option ty :=
  find (fun t => if text_eq_dec (spelled t) name then true else false)
       [TBool; TInt; TFloat; TRune; TStr; TVoid].

(** The types that a history of requests asks for; None if there is no such type. *)
Fixpoint asked (past : list (option ty)) (cs : list tcall) : list (option ty) :=
  match cs with
  | [] => past
  | AskName n :: cs' => asked (past ++ [builtin_called n]) cs'
  | AskRef i :: cs' => asked (past ++ [option_map TRef (nth i past None)]) cs'
  end.
