(** The order of declarations and uses in a text. *)
From Coq Require Import List Arith NArith ZArith Bool.
From Verif Require Import Base Model_Token Model_Parse Spec_Parse Model_Sem Spec_Sem Spec_Sem2.
Import ListNotations.
Open Scope list_scope.

(** A node and all nodes below it, in the order of the text. *)
Fixpoint listing (x : tnode) : list tnode := match x with mktnode _ _ _ c => x :: flat_map listing c end.

(** The node reads the variable with the number k, calls the function or assigns to it. *)
Definition mentions (x : tnode) (k : nat) : Prop :=
  (exists t ty c, uses x (XVar t k ty c)) \/ (exists t args ty, uses x (XCall t k args ty)) \/ exists y, tn_pay x = XSet k y.
