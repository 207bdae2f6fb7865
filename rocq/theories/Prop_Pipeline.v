(** C38: what a run of the compiler does to the outside. *)
From Coq Require Import List Arith NArith ZArith Bool Ascii String.
From Verif Require Import Base Model_Token Model_Utf8 Spec_Utf8 Model_Classify Model_Literal Model_Parse Spec_Parse Model_Sem
  Spec_Sem Model_Names Spec_Names Model_Cli Spec_Run Spec_IR Model_LLVM Model_CGen Model_CFile Model_Pipeline Spec_Pipeline
  Proof_Pipeline Prop_LLVM.
Import ListNotations.
Open Scope list_scope.
Open Scope N_scope.

(** * An outside for the examples *)

(** Six files. `ends` is how the linker ends. *)
Definition files (name : text) : option text :=
  if text_eqb name (u "a.sk") then Some (line "f(x: Int) Int {" ++ line "  return x + 1" ++ line "}" ++ line "return f(2)")
  else if text_eqb name (u "type.sk") then Some (line "x: Int = true" ++ line "return x")
  else if text_eqb name (u "parse.sk") then Some (line "if if {" ++ line "}")
  else if text_eqb name (u "quote.sk") then Some (u """abc")
  else if text_eqb name (u "byte.sk") then Some [255; 10]
  else if text_eqb name (u "empty.sk") then Some []
  else None.
Definition there (ends : status) : outside toy :=
  mkoutside toy files (fun f => negb (text_eqb f (u "/x.c"))) (fun _ _ => false) (fun _ => false) (fun _ => Ok false)
    (fun _ => false) (fun _ => u "0x0p+0") (fun _ => true) (fun _ => true) (fun _ => true) (fun _ m => m) true
    (fun _ => true) (fun _ _ => true) (fun _ => ends).
Definition good : outside toy := there (Exited 0).
Definition skull (w : outside toy) (argv : list text) : res (N * list (event toy) * list note) :=
  skull_main toy unfolded w None argv.

(** The files that are written, removed and the commands that are run, with the exit code. *)
Definition doings (r : res (N * list (event toy) * list note)) : option (N * list (string * text)) :=
  match r with
  | UB => None
  | Ok (c, e, _) =>
      Some (c, map (fun v => match v with
                             | Wrote _ f (CText _ _) => ("C"%string, f)
                             | Wrote _ f (IRText _ _) => ("IR"%string, f)
                             | Wrote _ f (Assembly _ _) => ("assembly"%string, f)
                             | Wrote _ f (Object _ _) => ("object"%string, f)
                             | Ran _ c => ("ran"%string, c)
                             | Removed _ f => ("removed"%string, f)
                             | Said _ _ => ("said"%string, [])
                             end) e)
  end.

(** * Theorems *)

(** Files are changed or programs run only if the source file holds a program that passes all
    checks, and every output is made from that program. *)
Theorem output_only_for_accepted_programs :
  forall H fold x color argv c e n, skull_main H fold x color argv = Ok (c, e, n) ->
  (exists ev, In ev e /\ touches H ev) ->
  exists b f s l, cli_main color argv = Go b /\ bd_filename b = Some f /\ file_accepted H x b f f s l /\
    forall g o, In (Wrote H g o) e -> made_from H fold x b f s l o.
Proof. exact main_touches_l. Qed.
Print Assumptions output_only_for_accepted_programs.

Example output_only_for_accepted_programs_ex :
  doings (skull good [u "a.sk"]) =
    Some (0, [("object"%string, u ".a.sk.o"); ("ran"%string, u "cc -nostartfiles "".a.sk.o"" -o ""a""  -I/usr/include/skull -lm");
              ("removed"%string, u ".a.sk.o")]) /\
  doings (skull good [u "type.sk"]) = Some (1, []) /\
  doings (skull good [u "parse.sk"]) = Some (1, []) /\
  doings (skull good [u "quote.sk"]) = Some (1, []) /\
  doings (skull good [u "byte.sk"]) = Some (1, []) /\
  doings (skull good [u "gone.sk"]) = Some (1, [("said"%string, [])]).
Proof. vm_compute. repeat split. Qed.

(** The same for each file of several. *)
Theorem output_only_for_accepted_files :
  forall H fold x b freed base file r, compile_file H fold x b freed base file = Ok r ->
  (exists e, In e (r_events H r) /\ touches H e) ->
  exists s l, file_accepted H x b base file s l /\
    forall f o, In (Wrote H f o) (r_events H r) -> made_from H fold x b base s l o.
Proof. exact output_accepted_l. Qed.
Print Assumptions output_only_for_accepted_files.

(** The settings of a command line. *)
Definition asked (argv : list text) : build_data :=
  match cli_main None argv with Go b => b | _ => handle_env None end.

Example output_only_for_accepted_files_ex :
  match compile_file toy unfolded good (asked [u "-S"; u "a.sk"]) false (u "a.sk") (u "a.sk") with
  | Ok r => doings (Ok (0, r_events toy r, [])) = Some (0, [("assembly"%string, u ".a.sk.s")]) /\ r_failed toy r = false
  | UB => False
  end.
Proof. vm_compute. repeat split. Qed.

(** When a file was asked for and the exit code is 0, the file holds an accepted program, and the
    output that the options ask for was written under the name that they ask for, and nothing
    else was done. The exception is an empty file, for which nothing is done. *)
Theorem success_delivers_the_program :
  forall H fold x color argv b f e n, Forall nz argv -> cli_main color argv = Go b -> bd_filename b = Some f ->
  skull_main H fold x color argv = Ok (0, e, n) ->
  (x_read H x f = Some [] /\ bd_werror b = false /\ e = []) \/
  (exists s l, file_accepted H x b f f s l /\ delivered H fold x b f f s l e).
Proof. exact main_success_l. Qed.
Print Assumptions success_delivers_the_program.

Example success_delivers_the_program_ex :
  doings (skull good [u "--c-backend"; u "a.sk"]) = Some (0, [("C"%string, u ".a.sk.c")]) /\
  doings (skull good [u "-E"; u "a.sk"; u "-O2"]) = Some (0, [("IR"%string, u "-")]) /\
  doings (skull good [u "-S"; u "a.sk"; u "-o"; u "x"]) = Some (0, [("assembly"%string, u "x")]) /\
  doings (skull good [u "-c"; u "a.sk"]) = Some (0, [("object"%string, u ".a.sk.o")]) /\
  doings (skull good [u "empty.sk"]) = Some (0, []) /\
  doings (skull good [u "empty.sk"; u "--werror"]) = Some (1, []).
Proof. vm_compute. repeat split. Qed.

(** Files behind one that fails are not looked at. *)
Theorem nothing_behind_a_failing_file :
  forall H fold x before b freed base f e n,
  real_main_loop H fold x b freed base (before ++ [f]) = Ok (true, e, n) ->
  forall after, real_main_loop H fold x b freed base (before ++ f :: after) = Ok (true, e, n).
Proof. exact later_ignored_l. Qed.
Print Assumptions nothing_behind_a_failing_file.

Definition several (argv : list text) (fs : list text) : option (N * list (string * text)) :=
  match real_main_loop toy unfolded good (asked argv) false (hd [] fs) fs with
  | Ok (q, e, _) => doings (Ok (if q then 1 else 0, e, []))
  | UB => None
  end.

Example nothing_behind_a_failing_file_ex :
  several [u "-E"; u "a.sk"] [u "a.sk"; u "type.sk"] = Some (1, [("IR"%string, u "-")]) /\
  several [u "-E"; u "a.sk"] [u "a.sk"; u "type.sk"; u "a.sk"; u "gone.sk"] = Some (1, [("IR"%string, u "-")]).
Proof. vm_compute. repeat split. Qed.

(** * What is false *)

(** The executable exists after exit code 0: a linker that is killed counts as one that
    succeeds, skull/codegen/llvm/write.c:226. *)
Theorem success_means_linked_refuted : exists command,
  In (Ran toy command) (match skull (there (Killed 9)) [u "a.sk"] with Ok (_, e, _) => e | UB => [] end) /\
  x_shell toy (there (Killed 9)) command = Killed 9 /\
  exists e n, skull (there (Killed 9)) [u "a.sk"] = Ok (0, e, n).
Proof.
  exists (u "cc -nostartfiles "".a.sk.o"" -o ""a""  -I/usr/include/skull -lm"). split; [vm_compute; auto|].
  split; [reflexivity|]. vm_compute. eauto.
Qed.
Print Assumptions success_means_linked_refuted.

(** Every file has an output of its own: the name that was made for the first one is kept,
    skull/codegen/llvm/write.c:306-310. *)
Theorem one_output_for_each_file_refuted :
  several [u "-S"; u "a.sk"] [u "a.sk"; u "a.sk"] = Some (0, [("assembly"%string, u ".a.sk.s"); ("assembly"%string, u ".a.sk.s")]) /\
  exists b x, bd_out_file b = None /\
    doings (match real_main_loop toy unfolded x b false (u "a.sk") [u "a.sk"; u "b.sk"] with
            | Ok (q, e, n) => Ok (if q then 1 else 0, e, n) | UB => UB end) =
    Some (0, [("object"%string, u ".a.sk.o"); ("object"%string, u ".a.sk.o")]).
Proof.
  split; [vm_compute; reflexivity|].
  exists (asked [u "-c"; u "a.sk"]),
    (mkoutside toy (fun f => files (u "a.sk")) (fun f => true) (fun _ _ => false) (fun _ => false) (fun _ => Ok false)
       (fun _ => false) (fun _ => u "0x0p+0") (fun _ => true) (fun _ => true) (fun _ => true) (fun _ m => m) true
       (fun _ => true) (fun _ _ => true) (fun _ => Exited 0)).
  split; vm_compute; reflexivity.
Qed.
Print Assumptions one_output_for_each_file_refuted.

(** An output that cannot be written is reported: the C back end prints to a NULL stream,
    skull/codegen/c/write.c:33-40, and a second file with extra arguments reads freed memory,
    skull/codegen/llvm/write.c:193-203. *)
Theorem failures_are_reported_refuted :
  skull good [u "--c-backend"; u "a.sk"; u "-o"; u "/x.c"] = UB /\
  several [u "a.sk"; u "--"; u "-s"] [u "a.sk"; u "a.sk"] = None /\
  several [u "a.sk"; u "--"; u "-s"] [u "a.sk"] <> None.
Proof. vm_compute. repeat split. discriminate. Qed.
Print Assumptions failures_are_reported_refuted.
