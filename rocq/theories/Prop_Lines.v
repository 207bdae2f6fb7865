(** Line directives in the C files of debug builds. *)
From Coq Require Import List Arith NArith ZArith Bool Lia Ascii String.
From Verif Require Import Base Model_Token Model_Literal Model_Parse Spec_Parse Model_Sem Spec_Sem Spec_Sem2 Proof_Sem Proof_SemEx
  Prop_Sem Model_Names Spec_Names Model_CGen Model_CFile Spec_C Spec_CGen Spec_CProg Spec_CBack Prop_CProg Spec_Lines Proof_Lines.
Import ListNotations.
Open Scope list_scope.
Open Scope N_scope.

(** The C file of a debug build is that of a plain build with a line directive in front of each
    statement, which has the line of the statement; behind the globals there are directives for the
    two functions that the compiler adds. *)
Theorem debug_adds_lines : forall env l d, c_file (with_debug true env) l = Ok d ->
  exists p, c_file (with_debug false env) l = Ok p /\
    marked (ce_file env) (function_marks (ce_syms env) l ++ 1 :: statement_marks (ce_syms env) l ++ [1]) d p.
Proof. exact file_marks. Qed.
Print Assumptions debug_adds_lines.

Lemma writable_debug : forall c23 env l b, writable c23 env l -> writable c23 (with_debug b env) l.
Proof. intros c23 env l b (W1 & W2 & W3 & W4 & W5). split; [exact W1|]. split; [exact W2|]. split; [exact W3|]. split; [exact W4|exact W5]. Qed.

(** A debug build has a file just where a plain build has one. *)
Theorem debug_files_are_written : forall w src ts tree s l env c23 m,
  accepted w src ts tree s l -> no_call_blocks tree -> few_arguments tree -> ce_syms env = s_syms s -> writable c23 env l ->
  labels_known env -> has_base (ce_file env) (m ++ u ".sk") -> nz m -> Spec_Names.fits m ->
  (exists d, c_file (with_debug true env) l = Ok d) <-> (exists p, c_file (with_debug false env) l = Ok p).
Proof.
  intros w src ts tree s l env c23 m A NC FA ES W LK B NZ F.
  rewrite (c_files_are_written w src ts tree s l (with_debug true env) c23 m A NC FA ES (writable_debug _ _ _ _ W) LK B NZ F).
  rewrite (c_files_are_written w src ts tree s l (with_debug false env) c23 m A NC FA ES (writable_debug _ _ _ _ W) LK B NZ F). reflexivity.
Qed.
Print Assumptions debug_files_are_written.

(** * Examples *)

Example debug_adds_lines_ex : exists d p, c_file (with_debug true (place true mixed)) (checked_of plain mixed) = Ok d /\ c_file (with_debug false (place true mixed)) (checked_of plain mixed) = Ok p /\
  marked (u "x/busy.sk") [1; 2; 3; 6; 7; 8; 10; 11; 13; 1; 16; 17; 18; 20; 21; 23; 1] d p.
Proof.
  destruct (c_file (with_debug true (place true mixed)) (checked_of plain mixed)) as [d|] eqn:E; [|exfalso; vm_compute in E; discriminate E].
  destruct (debug_adds_lines _ _ _ E) as (p & EP & M). exists d, p. split; [reflexivity|]. split; [exact EP|].
  assert (L : function_marks (ce_syms (place true mixed)) (checked_of plain mixed) ++ 1 :: statement_marks (ce_syms (place true mixed)) (checked_of plain mixed) ++ [1]
    = [1; 2; 3; 6; 7; 8; 10; 11; 13; 1; 16; 17; 18; 20; 21; 23; 1]) by (vm_compute; reflexivity).
  rewrite L in M. exact M.
Qed.

Example debug_files_are_written_ex :
  accepted plain mixed (tokens_of mixed) (tree_of plain mixed) (state_of plain mixed) (checked_of plain mixed) /\
  no_call_blocks (tree_of plain mixed) /\ few_arguments (tree_of plain mixed) /\
  writable false (place true mixed) (checked_of plain mixed) /\ has_base (u "x/busy.sk") (u "busy" ++ u ".sk").
Proof. destruct generated_files_read_back_ex as (A & NC & FA & W & B & _). auto. Qed.

(** In front of an exported function there is a declaration, which takes the line that the
    directive gives. So the function itself counts as being one line further down. *)
Theorem lines_of_exports_refuted : exists t, c_file (place true mixed) (checked_of plain mixed) = Ok t /\
  In (1, u "int64_t twice(int64_t n, char* s) __asm__(" ++ [34] ++ u ".busy.twice" ++ [34] ++ u ");") (presumed t) /\
  In (2, u "int64_t twice(int64_t n, char* s) {") (presumed t) /\
  forall n, In (n, u "int64_t twice(int64_t n, char* s) {") (presumed t) -> n = 2.
Proof.
  destruct (c_file (place true mixed) (checked_of plain mixed)) as [t|] eqn:E; [|exfalso; vm_compute in E; discriminate E].
  exists t. split; [reflexivity|]. vm_compute in E. injection E as <-.
  set (P := presumed _). vm_compute in P. subst P.
  split; [vm_compute; repeat (first [now left|right])|]. split; [vm_compute; repeat (first [now left|right])|].
  intros n H. vm_compute in H. repeat (destruct H as [H|H]; [first [discriminate H|congruence]|]). destruct H.
Qed.
Print Assumptions lines_of_exports_refuted.
