(** C28: type objects stand for types one to one. *)
From Coq Require Import List Arith NArith Bool String.
From Verif Require Import Base Model_Sem Model_Types Spec_Types Proof_Types.
Import ListNotations.
Open Scope list_scope.
Open Scope N_scope.

(** Every history of requests is free of undefined behaviour and each request has one
    result; the result is NULL exactly if there is no such type, and two results are the
    same object exactly if the same type was asked for. *)
Theorem type_objects_are_types : forall cs, exists s ps,
  trun tstart [] cs = Ok (s, ps) /\ List.length ps = List.length cs /\
  (forall i, nth i ps 0 = 0 <-> nth i (asked [] cs) None = None) /\
  (forall i j, nth i ps 0 = nth j ps 0 <->
               nth i (asked [] cs) None = nth j (asked [] cs) None).
Proof. exact types_ok_l. Qed.
Print Assumptions type_objects_are_types.

(** `Int`, `&Int`, `&Int` again, `&&Int`, `Str`, `&Str`, `&&Int` again, no type, `&` of it. *)
Example type_objects_are_types_ex :
  let cs := [AskName (u "Int"); AskRef 0; AskRef 0; AskRef 2; AskName (u "Str"); AskRef 4;
             AskRef 1; AskName (u "int"); AskRef 7] in
  asked [] cs = [Some TInt; Some (TRef TInt); Some (TRef TInt); Some (TRef (TRef TInt));
                 Some TStr; Some (TRef TStr); Some (TRef (TRef TInt)); None; None] /\
  match trun tstart [] cs with
  | Ok (_, ps) => ps = [2; 7; 7; 8; 5; 9; 8; 0; 0]
  | UB => False
  end.
Proof. vm_compute. auto. Qed.

(** The object of a type carries the name of the type as written and leads to the object of
    the type referred to; is_reference tells which types are references. *)
Theorem type_objects_describe_types : forall cs s ps, trun tstart [] cs = Ok (s, ps) ->
  forall i t, nth i (asked [] cs) None = Some t ->
  exists o, deref (ts_heap s) (nth i ps 0) = Ok o /\ o_name o = spelled t /\
    (forall t', t = TRef t' <-> exists o', deref (ts_heap s) (o_inner o) = Ok o' /\
       o_name o' = spelled t') /\
    is_reference (ts_heap s) (nth i ps 0) = Ok (match t with TRef _ => true | _ => false end).
Proof. exact objects_ok_l. Qed.
Print Assumptions type_objects_describe_types.

Example type_objects_describe_types_ex :
  match trun tstart [] [AskName (u "Int"); AskRef 0; AskRef 1] with
  | Ok (s, ps) => deref (ts_heap s) (nth 2 ps 0) = Ok (mktobj (u "&&Int") 7) /\
                  deref (ts_heap s) 7 = Ok (mktobj (u "&Int") 2) /\
                  is_reference (ts_heap s) 2 = Ok false
  | UB => False
  end.
Proof. vm_compute. auto. Qed.
