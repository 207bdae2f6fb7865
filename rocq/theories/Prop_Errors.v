(** Theorems about the messages. *)
From Coq Require Import List Arith NArith ZArith Bool Lia Ascii String.
From Verif Require Import Base Model_Token Model_Utf8 Model_Classify Model_Literal Model_Parse Spec_Parse Model_Sem Spec_Sem
  Spec_Errors Proof_SemEx Proof_Told Prop_Sem Prop_Sem3.
Import ListNotations.
Open Scope list_scope.
Open Scope N_scope.

(** The examples use these: the messages of the checks of a program, latest first. *)
Definition told_of (w : world) (src : text) : list smsg :=
  match parse_ast_tree (tokens_of src) with
  | Ret _ (Some tree) =>
      match validate_ast_tree w src tree with Pass s _ => s_msgs s | Stop m => m | Model_Sem.Crash => [] end
  | _ => []
  end.

(** C60: a message of the checks that has a location has the one of a token of the program, and
    what it says fits this token; the messages without a location name a function or a module
    of the program, or a type. *)
Theorem check_messages_point_into_program : forall w src ts ms tree, parse_ast_tree ts = Ret ms (Some tree) ->
  (forall s l, validate_ast_tree w src tree = Pass s l -> Forall (check_points src ts tree) (s_msgs s)) /\
  (forall m, validate_ast_tree w src tree = Stop m -> Forall (check_points src ts tree) m).
Proof.
  intros w src ts ms tree HP. pose proof (checks_point w src ts ms tree HP) as C.
  split; [intros s l E|intros m E]; rewrite E in C; exact C.
Qed.
Print Assumptions check_messages_point_into_program.

Example check_messages_point_into_program_ex :
  told_of plain (line "x := 1" ++ line "y := x + zz") = [mksmsg (S_VAR_NOT_FOUND (u "zz")) (Some (mkloc 2 10))] /\
  told_of plain (line "x: Int = true") = [mksmsg (S_EXPECTED_SAME_TYPE TInt TBool) (Some (mkloc 1 10))] /\
  told_of plain (line "f() Int { noop }") = [mksmsg (S_EXPECTED_RETURN (u "f")) None] /\
  told_of plain (line "f() { noop }" ++ line "f := 1") = [mksmsg (S_NO_REDEFINE_X_AS_Y Y_FUNC (u "f") Y_VAR) (Some (mkloc 2 1))] /\
  map sm_loc (told_of plain wasteful) = [Some (mkloc 9 7); Some (mkloc 4 1); Some (mkloc 2 5); Some (mkloc 2 5)].
Proof. vm_compute. repeat split. Qed.
