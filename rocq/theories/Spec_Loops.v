(** Programs for which the LLVM back end finds the target of every jump. *)
From Coq Require Import List Arith NArith ZArith Bool.
From Verif Require Import Base Model_Literal Model_Parse Spec_Parse Model_Sem Spec_Sem Spec_Sem2 Spec_Run.
Import ListNotations.
Open Scope list_scope.
Open Scope nat_scope.

(** What a program has to say about loops, in the order of the text: where a loop starts and
    where it ends, and where `break` and `continue` stand. (No code is made for blocks behind
    external functions.) *)
Inductive mark := Starts | Ends | Jumps.
Fixpoint marks (ys : list symbol) (n : tnode) : list mark :=
  match n with
  | mktnode t _ p c =>
      match t, p with
      | N_WHILE, _ => Starts :: flat_map (marks ys) c ++ [Ends]
      | (N_BREAK | N_CONTINUE), _ => [Jumps]
      | N_FUNCTION_PROTO, XProto k _ => if is_external ys k then [] else flat_map (marks ys) c
      | _, _ => flat_map (marks ys) c
      end
  end.
(** Between a jump and the start or end of a loop that is nearest before it, there are only
    jumps, and it is a start. *)
Definition jumps_follow_starts (ys : list symbol) (l : list tnode) : Prop :=
  forall a b, flat_map (marks ys) l = a ++ Jumps :: b ->
  exists a1 js, a = a1 ++ Starts :: js /\ Forall (fun m => m = Jumps) js.

(** No variable has the type Void and no function takes a value of this type. *)
Definition no_void (ys : list symbol) : Prop :=
  forall y, In y ys ->
  match y_kind y with KVar v => v_type v <> TVoid | KFunc f => ~ In TVoid (f_params f) | _ => True end.
(** Neither references nor results of functions without a result are compared with `is` and
    `isnt`. *)
Definition comparable (l : list tnode) : Prop :=
  forall n o a b t c, in_checked n l -> uses n (XBin o a b t c) -> o = BIs \/ o = BIsnt ->
  x_ty b <> TVoid /\ forall r, x_ty b <> TRef r.

(** No loop stands inside of a loop. *)
Definition loops_apart (l : list tnode) : Prop :=
  forall n m, in_checked n l -> tn_type n = N_WHILE -> in_checked m (tn_child n) -> tn_type m <> N_WHILE.

(** The program has a statement. (The parser makes a node of the type `N_UNKNOWN` for a file
    without statements.) *)
Definition has_statements (tree : list node) : Prop := forall n, in_tree n tree -> n_type n <> N_UNKNOWN.
