(** Model of the type objects: skull/semantic/types.c:187-235 and 299-301. *)
From Coq Require Import List Arith NArith Bool Ascii String.
From Verif Require Import Base Model_Vector Model_HashTable Model_Names.
Import ListNotations.
Open Scope list_scope.
Open Scope N_scope.

(** Type, skull/semantic/types.h:28-42: name and inner type, without the union for the
    back ends. Pointers are numbers, 0 is NULL. *)
Record tobj := mktobj { o_name : text; o_inner : ptr }.

(** The objects TYPE_BOOL, ... and TYPES_BUILTIN, skull/semantic/types.c:220-235. Entry i has
    address i + 1. *)
Definition builtin_objects : list tobj :=
  [ mktobj (u "Bool") 0; mktobj (u "Int") 0; mktobj (u "Float") 0;
    mktobj (u "Rune") 0; mktobj (u "Str") 0; mktobj (u "Void") 0 ].

(** The memory that holds type objects, oldest first: entry i has address i + 1. The objects
    made by Calloc (skull/semantic/types.c:212) come behind the builtin ones, so a new object
    has an address that no other has; none is freed before the state
    (skull/semantic/types.c:319-322). `ts_refs` is `dynamic_refs` of SemanticState
    (skull/semantic/shared.h:12-21). *)
Record tstate := mktstate { ts_heap : list tobj; ts_refs : table }.

(** The state before the first request: `dynamic_refs` is NULL
    (Calloc in setup_semantic_state, skull/semantic/shared.c:27). *)
Definition tstart : tstate := mktstate builtin_objects None.

(** `*type`: undefined for NULL and for what is no object. *)
Definition deref (heap : list tobj) (p : ptr) : res tobj :=
  if p =? 0 then UB else
  match nth_error heap (N.to_nat (p - 1)) with Some o => Ok o | None => UB end.

(** Loop of find_builtin_type, skull/semantic/types.c:188-196, from address p on. *)
Fixpoint find_builtin_from (os : list tobj) (p : ptr) (name : text) : ptr :=
  match os with
  | [] => 0
  | o :: os' => if text_eqb name (o_name o) then p else find_builtin_from os' (p + 1) name
  end.

(** find_builtin_type, skull/semantic/types.c:187-197. *)
Definition find_builtin_type (name : text) : ptr := find_builtin_from builtin_objects 1 name.

(** get_reference_type, skull/semantic/types.c:199-218. *)
Definition get_reference_type (s : tstate) (type : ptr) : res (tstate * ptr) :=
  if type =? 0 then Ok (s, 0) else
  let refs := match ts_refs s with None => make_ht | r => r end in
  do o <- deref (ts_heap s) type;
  do found <- ht_get refs (o_name o);
  if negb (found =? 0) then Ok (mktstate (ts_heap s) refs, found) else
  let len := strlen (o_name o) in
  let b := malloc (len + 2) in
  do b <- put1 b 0 (chr "&");
  do b <- strncpy b 1 (o_name o) (len + 1);
  do name <- cstr b;
  let new_type := N.of_nat (List.length (ts_heap s)) + 1 in
  do r <- ht_add refs (o_name o) new_type; let '(_, refs') := r in
  Ok (mktstate (ts_heap s ++ [mktobj name type]) refs', new_type).

(** is_reference, skull/semantic/types.c:299-301. *)
Definition is_reference (heap : list tobj) (type : ptr) : res bool :=
  do o <- deref heap type; Ok (negb (o_inner o =? 0)).

(** What the other parts of skull/semantic ask for: a builtin type by name, or the reference
    to the type that request i returned (skull/semantic/types.c:313,
    skull/semantic/expr.c:137). A request that was not made counts as NULL. *)
Inductive tcall := AskName (name : text) | AskRef (i : nat).

(** A history of requests; `past` are the earlier results, oldest first. *)
Fixpoint trun (s : tstate) (past : list ptr) (cs : list tcall) : res (tstate * list ptr) :=
  match cs with
  | [] => Ok (s, past)
  | AskName n :: cs' => trun s (past ++ [find_builtin_type n]) cs'
  | AskRef i :: cs' =>
      do r <- get_reference_type s (nth i past 0); let '(s', p) := r in
      trun s' (past ++ [p]) cs'
  end.
