(** Source locations of the instructions of debug builds. *)
From Coq Require Import List Arith NArith ZArith Bool Lia Ascii String.
From Verif Require Import Base Model_Token Model_Literal Model_Parse Spec_Parse Model_Sem Spec_Sem Spec_Sem2 Proof_Sem Proof_SemEx Prop_Sem
  Model_Where Spec_Where Proof_Where.
Import ListNotations.
Open Scope list_scope.
Open Scope N_scope.

(** The locations that are set are just those that belong to statements that can be reached, each
    in the scope of the blocks and the function around the statement; and one for the end of a
    program that does not end in a jump. *)
Theorem locations_are_right : forall ys l w, In w (gen_module_w ys l) <->
  (exists path n, reached ys l path n /\ belongs ys n (w_loc w) /\ w_scope w = scope_at (ScFun None) path /\ w_func w = function_at None path) \/
  (exists n r, l = n :: r /\ (forall m, In m l -> ~ jump m) /\ w = mkmark (node_loc (tn_token n)) (ScFun None) None).
Proof. exact module_marks. Qed.
Print Assumptions locations_are_right.

(** What the verifier of LLVM asks for: the scope of an instruction is in the function that the instruction is in. *)
Theorem scopes_are_in_functions : forall ys l w, In w (gen_module_w ys l) -> subprogram (w_scope w) = w_func w.
Proof.
  intros ys l w H. apply locations_are_right in H as [(path & n & _ & _ & -> & ->)|(n & r & _ & _ & ->)]; [|reflexivity]. now apply scope_function.
Qed.
Print Assumptions scopes_are_in_functions.

(** * Examples *)

Definition steps_in : text :=
  line "f(a: Int) Int {" ++
  line "  while a < 3 {" ++
  line "    if a is 2 {" ++
  line "      return f(a)" ++
  line "    }" ++
  line "    noop" ++
  line "  }" ++
  line "  return 0" ++
  line "}" ++
  line "mut x := f(1)" ++
  line "x = 5" ++
  line "if x is 5 {" ++
  line "  f(x)" ++
  line "}".
Definition marks_in (src : text) : list mark := gen_module_w (s_syms (state_of plain src)) (checked_of plain src).
Example locations_are_right_ex :
  compiles plain steps_in = true /\
  In (mkmark (mkloc 4 7) (ScBlock (ScBlock (ScFun (Some 1%nat)) (mkloc 2 3)) (mkloc 3 5)) (Some 1%nat)) (marks_in steps_in) /\
  In (mkmark (mkloc 13 3) (ScBlock (ScFun None) (mkloc 12 1)) None) (marks_in steps_in).
Proof. split; [vm_compute; reflexivity|]. split; vm_compute; tauto. Qed.

Example scopes_are_in_functions_ex : exists w, In w (marks_in steps_in) /\ w_func w = Some 1%nat /\ subprogram (w_scope w) = Some 1%nat /\ w_scope w <> ScFun (Some 1%nat).
Proof.
  exists (mkmark (mkloc 4 7) (ScBlock (ScBlock (ScFun (Some 1%nat)) (mkloc 2 3)) (mkloc 3 5)) (Some 1%nat)).
  split; [exact (proj1 (proj2 locations_are_right_ex))|]. split; [reflexivity|]. split; [reflexivity|discriminate].
Qed.

Fixpoint first_assign (l : list tnode) : option tnode :=
  match l with
  | [] => None
  | n :: r => if stops (tn_type n) then None else match tn_type n with N_VAR_ASSIGN => Some n | _ => first_assign r end
  end.
Lemma first_reached : forall ys l n, first_assign l = Some n -> reached ys l [] n /\ tn_type n = N_VAR_ASSIGN.
Proof.
  intros ys. induction l as [|m l IH]; intros n E; [discriminate E|]. cbn [first_assign] in E. destruct (stops (tn_type m)) eqn:S; [discriminate E|].
  assert (X : m = n /\ tn_type m = N_VAR_ASSIGN \/ first_assign l = Some n) by (destruct (tn_type m); auto; injection E as <-; auto).
  destruct X as [(-> & T)|X]; [split; [constructor|exact T]|]. destruct (IH n X) as (R & T). split; [|exact T]. apply re_later; [|exact R]. intro J. apply stops_jump in J. congruence.
Qed.
Lemma no_line : forall src k, forallb (fun w => negb (l_line (w_loc w) =? k)) (marks_in src) = true -> forall w, In w (marks_in src) -> l_line (w_loc w) <> k.
Proof. intros src k F w I E. rewrite forallb_forall in F. specialize (F w I). rewrite E, N.eqb_refl in F. discriminate F. Qed.

(** Assignments do not have their own line: stores have the line where the variable was defined.
    And the end of the program has the line of its first statement. *)
Theorem assignments_have_lines_refuted : exists src n, compiles plain src = true /\
  reached (s_syms (state_of plain src)) (checked_of plain src) [] n /\ tn_type n = N_VAR_ASSIGN /\ l_line (node_loc (tn_token n)) = 11 /\
  (forall w, In w (marks_in src) -> l_line (w_loc w) <> 11) /\ In (mkmark (mkloc 1 1) (ScFun None) None) (marks_in src).
Proof.
  destruct (first_assign (checked_of plain steps_in)) as [n|] eqn:E; [|exfalso; vm_compute in E; discriminate E].
  exists steps_in, n. split; [vm_compute; reflexivity|]. destruct (first_reached (s_syms (state_of plain steps_in)) _ _ E) as (R & T).
  split; [exact R|]. split; [exact T|]. split.
  - assert (X : option_map (fun n => l_line (node_loc (tn_token n))) (first_assign (checked_of plain steps_in)) = Some 11) by (vm_compute; reflexivity).
    rewrite E in X. cbn [option_map] in X. now injection X.
  - split; [apply no_line; vm_compute; reflexivity|]. vm_compute. tauto.
Qed.
Print Assumptions assignments_have_lines_refuted.
